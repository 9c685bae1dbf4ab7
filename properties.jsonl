{"id": "C01", "title": "Time plus Duration is exact or is refused", "statement": "For every Time t and Duration d, t + d (and t - d where -d does not overflow) either returns the Time whose nanosecond count is exactly the sum of the two counts, with a nanosecond field below one billion, or throws; it throws exactly when the sum is negative or reaches 2^31 seconds.", "quantifier": "all Times with any 32-bit fields and all Durations with any 32-bit fields", "why_tests_cant": "the carry/borrow behaviour has 2^128 input combinations; tests sample a handful of carries", "anchors": ["aslam_cv/aslam_time/include/aslam_time/implementation/Time.hpp:TimeBase::operator+", "aslam_cv/aslam_time/src/time.cpp:normalizeSecNSecUnsigned"]}
{"id": "C02", "title": "Difference of Times is exact and undone by addition", "statement": "For any two Times below 2^31 seconds with normalised fields, t1 - t2 never overflows, its nanosecond count is the exact difference, and t2 + (t1 - t2) gives t1 back. Beyond 2^31 seconds the subtraction can be signed overflow.", "quantifier": "all pairs of Times", "why_tests_cant": "needs every pair of field values, including the extreme ones where the 32-bit subtraction overflows", "anchors": ["aslam_cv/aslam_time/include/aslam_time/implementation/Time.hpp:TimeBase::operator-", "aslam_cv/aslam_time/include/aslam_time/implementation/Duration.hpp:DurationBase::DurationBase"]}
{"id": "C03", "title": "Comparison operators order the represented instants", "statement": "Time comparison operators on values produced by the API agree with comparing nanosecond counts, so they form a total order and == coincides with equal counts. Duration comparisons agree with nanosecond counts whenever both nanosecond fields are below one billion; a Duration produced by arithmetic may instead carry a field of exactly one billion, and then == and < can contradict the counts.", "quantifier": "all pairs of Times / Durations reachable through public constructors and arithmetic", "why_tests_cant": "consistency of six operators over all pairs and all histories of arithmetic; the violating Durations sit on exact one-second carries", "anchors": ["aslam_cv/aslam_time/include/aslam_time/implementation/Time.hpp:operator<", "aslam_cv/aslam_time/include/aslam_time/implementation/Duration.hpp:operator<", "aslam_cv/aslam_time/src/duration.cpp:normalizeSecNSecSigned"]}
{"id": "C04", "title": "Nanosecond conversions round-trip", "statement": "fromNSec(toNSec(t)) gives back every normalised Time and Duration, toNSec(fromNSec(n)) = n for every n representable in 32-bit seconds; larger inputs are either rejected or reduced modulo 2^32 seconds exactly as the casts say.", "quantifier": "all 64-bit nanosecond counts and all field values", "why_tests_cant": "64-bit input space", "anchors": ["aslam_cv/aslam_time/include/aslam_time/implementation/Time.hpp:fromNSec", "aslam_cv/aslam_time/include/aslam_time/implementation/Duration.hpp:fromNSec", "aslam_cv/aslam_time/include/aslam_time/Time.hpp:toNSec"]}
{"id": "C05", "title": "Duration arithmetic is exact and reports overflow", "statement": "Sum, difference and negation of Durations return a Duration with the exact nanosecond count, or throw / are undefined precisely when the 32-bit fields cannot hold the intermediate values; repeated += over any list of Durations adds exactly.", "quantifier": "all Durations with 32-bit fields, all finite histories of += and -=", "why_tests_cant": "needs all operand pairs and arbitrary-length histories", "anchors": ["aslam_cv/aslam_time/include/aslam_time/implementation/Duration.hpp:operator+,operator-,operator+=", "aslam_cv/aslam_time/src/duration.cpp:normalizeSecNSecSigned"]}
{"id": "C06", "title": "Printed times denote the value", "statement": "Streaming a Time prints a decimal number of seconds equal to the value. Streaming a Duration prints its value when it is nonnegative with a nanosecond field below one billion; for negative Durations and for a field of exactly one billion the text denotes a different value.", "quantifier": "all Times and Durations", "why_tests_cant": "decimal rendering over all field values; failure only for negative or un-normalised values", "anchors": ["aslam_cv/aslam_time/src/time.cpp:operator<<"]}
{"id": "C07", "title": "Portable archive integers round-trip", "statement": "Writing any sequence of integers of supported types to a portable binary archive and reading it back as the same types yields the same integers, consuming exactly the bytes written, whatever follows in the stream; writer and reader may be different machines if an endian flag was requested. This needs the compile-time byte-order macro to match the host (otherwise values are lost) and excludes the 64-bit pattern of -2^63 (undefined behaviour).", "quantifier": "all integers of every width, all following stream contents", "why_tests_cant": "2^64 values times arbitrary stream suffixes", "anchors": ["Schweizer-Messer/sm_boost/src/portable_binary_oarchive.cpp:save_impl", "Schweizer-Messer/sm_boost/src/portable_binary_iarchive.cpp:load_impl"]}
{"id": "C08", "title": "Portable archive bytes do not depend on the host", "statement": "When an endian flag is requested, the bytes written for an integer are its sign-and-length byte followed by its minimal base-256 digits in the requested order, whatever the host byte order. Without a flag the host order is used and not recorded, so another machine reads a different number.", "quantifier": "all integers, both host byte orders, both compile-time configurations", "why_tests_cant": "needs machines of both byte orders for each value", "anchors": ["Schweizer-Messer/sm_boost/include/sm_boost/portable_binary_archive.hpp:reverse_bytes", "Schweizer-Messer/sm_boost/src/portable_binary_oarchive.cpp:save_impl", "Schweizer-Messer/sm_boost/src/portable_binary_iarchive.cpp:load_impl"]}
{"id": "C09", "title": "Portable archive rejects oversized integers", "statement": "Reading an integer whose encoded width exceeds the requested type throws, a truncated integer throws, and every other byte string yields an integer from at most one byte more than the requested width; the only inputs with undefined behaviour are a length byte 0x80 on big-endian builds and eight magnitude bytes encoding 2^63 with a negative sign. A value of the right width but outside the type's range is wrapped, not rejected.", "quantifier": "all byte strings and all requested widths", "why_tests_cant": "adversarial inputs are unbounded", "anchors": ["Schweizer-Messer/sm_boost/src/portable_binary_iarchive.cpp:load_impl"]}
{"id": "C10", "title": "Job queue runs every job at most once in order", "statement": "In every interleaving of schedulers and workers, the jobs started so far (in start order) followed by the jobs still queued are exactly the jobs scheduled, in order; every started job has finished once or is being run by exactly one worker; and empty() returns true exactly when every scheduled job has been started.", "quantifier": "all schedules of any number of workers and clients, all histories", "why_tests_cant": "thread interleavings cannot be enumerated by tests", "anchors": ["Schweizer-Messer/sm_boost/src/JobQueue.cpp:exec_loop,scheduleWork"]}
{"id": "C11", "title": "Job queue shutdown and waiting", "statement": "When waitForEmptyQueue() returns, every job scheduled before has finished. If the queue is started and nobody stops it, the threads come to rest with all jobs finished and every call returned (no lost wake-up). The destructor always returns, and then only workers that had not yet begun are left (those do then touch a destroyed queue). join() returns provided no worker stands between finding the queue empty and waiting when join() raises its flag; in that window join() and the worker wait for each other forever. waitForEmptyQueue() never returns when the queue is stopped with jobs left, and start() after join() does not resume work.", "quantifier": "all interleavings of any number of workers and clients; spurious wake-ups allowed", "why_tests_cant": "lost wake-ups need a particular interleaving of an unlocked flag write with a condition wait", "anchors": ["Schweizer-Messer/sm_boost/src/JobQueue.cpp:stop,join,waitForEmptyQueue,exec_loop"]}
{"id": "C12", "title": "Timestamp correction keeps the lower convex hull", "statement": "After any sequence of (device, local) samples, the corrector's points are a subsequence of the accepted samples that spans them, strictly increasing in device time and with non-decreasing slopes (convex), and no accepted sample lies below the line through any two neighbouring points; a sample is refused with an exception, leaving the corrector unchanged, exactly when an accepted sample has the same or a later device time.", "quantifier": "all finite sequences of samples, in exact arithmetic", "why_tests_cant": "the invariant ranges over arbitrary-length histories", "anchors": ["Schweizer-Messer/sm_timing/include/sm_timing/implementation/TimestampCorrector.hpp:correctTimestamp"]}
{"id": "C13", "title": "Corrected timestamps", "statement": "The corrected time returned for a sample is never later than the local receive time; with fewer than three stored points it is the receive time, and otherwise the value, at the device time, of the stored segment around the middle of the history, a line no accepted sample lies below. With three or more stored points getLocalTime, getSlope and getOffset use stored points and agree (time = slope*device+offset). With two stored points after the hull shrank, they may index past the end.", "quantifier": "all finite sequences of samples, and queries between them, in exact arithmetic", "why_tests_cant": "stale index only after particular pop patterns", "anchors": ["Schweizer-Messer/sm_timing/include/sm_timing/implementation/TimestampCorrector.hpp:getLocalTime,getSlope,getOffset"]}
{"id": "C14", "title": "In-place permutation", "statement": "permute(c, p) with p any permutation of the indices sets c[i] to the old c[p[i]] for all i; an index vector of the wrong length throws, one with an out-of-range entry never returns normally, and no call that returns or throws loses or duplicates an element. With an index vector that repeats an entry (not a permutation) the call may loop forever or return an arrangement that is not the requested one; both are exhibited.", "quantifier": "all containers, all permutations of any length, all index vectors", "why_tests_cant": "n! permutations of unbounded n", "anchors": ["aslam_incremental_calibration/aslam_incremental_calibration/include/aslam_incremental_calibration/algorithms/permute.tpp:permute"]}
{"id": "C15", "title": "Grid index and coordinates are consistent", "statement": "A grid is built exactly when each dimension has positive resolution, min < max and resolution <= max - min. The linear index is a bijection between index tuples in bounds and [0, numCells). getIndex of a point in range gives a valid index whose cell contains the point (half-open cells, the maximum belonging to the last), other points throw. getCoordinates of an index in bounds is found again in that cell if it is in range (for integer grids: if the minimum is non-negative). The loop over all cells ends and visits every cell once. Known violations: integer grids with negative minimum report centres outside the cell; the centre of the last cell may lie beyond the maximum; negative indices pass the bounds check.", "quantifier": "all grids of any dimension, all points and indices; coordinates as integers or exact reals", "why_tests_cant": "unbounded dimensions and extents", "anchors": ["aslam_incremental_calibration/aslam_incremental_calibration/include/aslam_incremental_calibration/data-structures/Grid.tpp"]}
{"id": "C16", "title": "Histograms count every in-range sample once", "statement": "After any sequence of samples, the bin contents sum to the number of in-range samples and each bin holds the number of samples lying in it; the mode is a bin with the largest count; at most half the samples lie before the median bin and at least half up to it; the normalised histogram sums to one; reset gives back the empty histogram.", "quantifier": "all sample sequences and histogram configurations", "why_tests_cant": "arbitrary-length histories", "anchors": ["aslam_incremental_calibration/aslam_incremental_calibration/include/aslam_incremental_calibration/statistics/Histogram1v.tpp"]}
{"id": "C17", "title": "Optimization problem batches stay well-formed", "statement": "After any sequence of public operations on a batch, including failing ones: it contains exactly the design variables and error terms whose addition was accepted since the last clear, each once; every error term's design variables are in the batch; the group ordering lists every non-empty group once; designVariable(i) and errorTerm(i) enumerate everything exactly once and throw beyond; additions and orderings are accepted exactly when valid and a rejected one changes nothing (a rejected permutation may shuffle but loses nothing); restoring gives each variable the value it had when last saved.", "quantifier": "all finite histories of operations, including failing ones", "why_tests_cant": "arbitrary-length histories", "anchors": ["aslam_incremental_calibration/aslam_incremental_calibration/src/core/OptimizationProblem.cpp"]}
{"id": "C18", "title": "Incremental problem is the union of its batches", "statement": "After any history of calls in which no add was rejected, with batches that are not changed while inside, the incremental problem contains exactly the design variables (with their groups) and the error terms of its batches; batches share no error terms and agree on groups; add accepts a batch exactly when it fits, remove takes out exactly the named batch and keeps the others in order, permuting only permutes, other calls change no batches, and no call has undefined behaviour. (A batch changed while inside makes a later remove wrap a reference count.)", "quantifier": "all finite histories of add, remove, reorder, permute, save, restore and clear", "why_tests_cant": "reference counting over arbitrary interleavings of add/remove", "anchors": ["aslam_incremental_calibration/aslam_incremental_calibration/src/core/IncrementalOptimizationProblem.cpp:add,remove"]}
{"id": "C19", "title": "What a rejected add leaves behind", "statement": "If adding a batch throws, the batches, error terms and saved values of the incremental problem and the values of all variables are as before, and a null batch changes nothing. But the batch's design variables that were counted before the failure stay in the problem although they are in no batch, and a group mismatch leaves a group without variables in the ordering, after which no ordering is accepted and enumeration can throw below the reported count.", "quantifier": "all states and batches", "why_tests_cant": "failure paths after partial mutation", "anchors": ["aslam_incremental_calibration/aslam_incremental_calibration/src/core/IncrementalOptimizationProblem.cpp:add"]}
{"id": "C20", "title": "Incremental enumeration is consistent", "statement": "In every state reached without a rejected add, designVariable(i) and errorTerm(i) enumerate all design variables and error terms exactly once for i below the reported counts and are rejected above; the group ordering lists each group once and each group holds exactly its variables.", "quantifier": "all reachable states and indices", "why_tests_cant": "all states, all indices", "anchors": ["aslam_incremental_calibration/aslam_incremental_calibration/src/core/IncrementalOptimizationProblem.cpp:designVariable,getErrorIdx,getGroupId"]}
{"id": "C21", "title": "A rejected batch leaves the estimate unchanged", "statement": "If addBatch returns and has not accepted the batch (whatever the optimizer did), the batches, their order, the reference counts, the groups and their ordering, the values of all design variables and the stored statistics are as before the call. If the batch was in the problem already (possible only without error terms), the same batches remain but possibly in another order. If addBatch throws because the optimizer throws or because nothing is to be marginalized, the batch stays in the problem.", "quantifier": "all histories, all optimizer behaviours (as an oracle), all batches", "why_tests_cant": "depends on the numerical optimizer's behaviour, quantified over as an oracle", "anchors": ["aslam_incremental_calibration/aslam_incremental_calibration/src/core/IncrementalEstimator.cpp:addBatch"]}
{"id": "C22", "title": "Batch acceptance follows the documented criterion", "statement": "addBatch keeps the batch exactly when forced, or when the solution is valid (validity checking off, or fewer than the maximum of iterations and a strictly lower final cost) and the information gain (half the growth of the log2 sum of singular values, in doubles) exceeds the threshold or the rank grew; it reports that decision and gain; on acceptance the problem has the batch appended, the optimizer's values and the new statistics. Null or unfitting batches, missing marginalized group and a failing optimizer throw. Removing takes out exactly the named batch; unknown ones are ignored; reoptimizing changes only values and statistics.", "quantifier": "all histories, all optimizer outcomes including NaN costs", "why_tests_cant": "oracle outcomes", "anchors": ["aslam_incremental_calibration/aslam_incremental_calibration/src/core/IncrementalEstimator.cpp:addBatch"]}
{"id": "C23", "title": "Reverting optimizers never end worse than they started", "statement": "For every run of optimize(), whatever the linear solver answers and whatever the cost function is: the reported start and final costs are the costs of the design variable values before and after the run, and the final values are those of the last step that was kept. With a policy that reverts on failure (Levenberg-Marquardt, dog-leg) and a cost that is never NaN, computed in IEEE binary64, the final cost is at most the start cost and no kept step raised it. Outside these conditions it fails: a NaN cost counts as an improvement, and Gauss-Newton keeps steps that raise the cost.", "quantifier": "all cost functions, update rules, solver answers, solvers, policies, iteration limits and numbers of design variables", "why_tests_cant": "the numerical behaviour of the cost function and of the solver is quantified over", "anchors": ["aslam_optimizer/aslam_backend/src/Optimizer2.cpp:optimize", "aslam_optimizer/aslam_backend/src/TrustRegionPolicy.cpp"]}
{"id": "C24", "title": "The optimizer loop terminates and counts exactly", "statement": "optimize() always ends, for every sequence of solver outcomes and costs. The reported iteration count is the number of passes in which the solver delivered a step (kept or reverted), the reported failure count is the number of solver failures plus the number of reverted steps, the solver-failure flag is set exactly if some solve failed; both counts are at most the iteration limit and fewer than twice the limit passes are made. It throws before the first pass exactly when there is no active design variable or no error term.", "quantifier": "all solver outcome sequences", "why_tests_cant": "infinite space of outcome sequences", "anchors": ["aslam_optimizer/aslam_backend/src/Optimizer2.cpp:optimize"]}
{"id": "C25", "title": "The optimizer stops on convergence", "statement": "As long as no linear solve has failed, the loop ends after the first pass whose largest step entry is not above the step threshold or whose cost change is not above the cost threshold; and a run that ends below both iteration limits ended that way, with no solver failure. It fails after a solver failure: the thresholds are then ignored for the rest of the run.", "quantifier": "all solver outcome sequences", "why_tests_cant": "only violated after an earlier solver failure", "anchors": ["aslam_optimizer/aslam_backend/src/Optimizer2.cpp:optimize"]}
{"id": "C26", "title": "Jacobian containers add pointwise", "statement": "Whatever sequence of additions of single Jacobians, additions of whole containers and chain-rule multiplications with matching sizes is applied to a fresh container, each succeeds and leaves a container sorted by block index without duplicates; adding a container yields for every design variable the sum of the two Jacobians (missing entries count as zero), inactive design variables are ignored, and looking up a design variable returns its Jacobian. Different row counts are rejected with an exception. This relies on distinct active design variables having distinct block indices: when two share one, the second variable's Jacobian is silently added to the first's, or sizes mismatch (undefined behaviour).", "quantifier": "all containers and all histories of operations", "why_tests_cant": "all key overlaps, unbounded sizes", "anchors": ["aslam_optimizer/aslam_backend/src/JacobianContainer.cpp:add"]}
{"id": "C27", "title": "The compressed-column Jacobian represents the stacked Jacobian", "statement": "For every numbered set of active design variables and every list of error terms, laying out the structure and then letting the error terms write their Jacobians, in any order and any number of rounds, gives a well-formed compressed-column matrix whose dense form and element access equal the transpose of the stacked Jacobians of the last round. Appending a diagonal block gives [J^T | D], replacing it equals appending the new one, removing it restores the matrix exactly, and misuse throws. Known limits shown by witnesses: clearing a non-square matrix or re-initialising a used one makes the next append throw, and an error term that omits the Jacobian of one of its active design variables misplaces values.", "quantifier": "all error term sequences, design variable layouts, write orders and earlier matrix contents", "why_tests_cant": "unbounded layouts", "anchors": ["aslam_optimizer/aslam_backend/include/aslam_backend/backend/implementation/CompressedColumnMatrix.hpp"]}
{"id": "C28", "title": "Multi-threaded evaluation gives the single-threaded result", "statement": "For any number of threads and between 1 and INT_MAX error terms, the index ranges handed to the threads cover every error term exactly once, in order, without an empty range. Whatever the interleaving of the threads, the cost is the sum of the threads' sums and the error vector is the stack of the negated weighted errors; no two threads write the same element; in exact arithmetic the cost is the sum over all error terms for every number of threads; if an error term throws, the call throws; and the Jacobian built by any number of threads in any order is the transposed stacked Jacobian. Known limits: no error terms with two or more threads divides by zero, more than INT_MAX terms overflow, and in binary64 the cost can depend on the number of threads.", "quantifier": "all thread counts, problem sizes and interleavings of the threads' steps", "why_tests_cant": "the number of interleavings grows exponentially and a test observes only the scheduler's choice", "anchors": ["aslam_optimizer/aslam_backend/src/LinearSystemSolver.cpp:setupThreadedJob", "aslam_optimizer/aslam_backend/src/LinearSystemSolver.cpp:evaluateError", "aslam_optimizer/aslam_backend/include/aslam_backend/backend/implementation/CompressedColumnJacobianTransposeBuilder.hpp:setupThreadedJob"]}
{"id": "C29", "title": "Removing from an optimization problem leaves no dangling references", "statement": "After any history of adding and removing design variables and error terms and clearing, within the contract (a term passed for removal is alive; in debug builds an added term's design variables are present; a term the problem alone owns does not name a design variable twice), the problem holds exactly the variables and terms the history implies, in insertion order, without duplicate variables; adding a variable twice throws and changes nothing; asking for the error terms of a variable gives exactly the terms in the problem that use it; removing a variable removes exactly the terms that use it and keeps the rest in order. Outside the contract: removing a variable that an owned term names twice uses the term after its destruction; release builds accept terms on missing variables; debug builds throw but keep the half-registered term.", "quantifier": "all histories of calls, all error terms", "why_tests_cant": "arbitrary histories", "anchors": ["aslam_optimizer/aslam_backend/src/OptimizationProblem.cpp"]}
{"id": "C30", "title": "M-estimator weights are valid robust weights", "statement": "In exact arithmetic, for every non-negative squared error the weights of all policies are positive and never increase with the error; Cauchy, Huber and Blake-Zisserman weights are at most one; Huber is one up to and including the threshold and continuous there; Blake-Zisserman takes the requested weight at its cut-off; each weight is the derivative of the loss it is named after; the weighted squared error of Cauchy and Huber never falls as the error grows. It is not so for Geman-McClure (whose weight also exceeds one: 1/sigma^2 at zero error) and Blake-Zisserman, where a larger error can cost less. In binary64, zero parameters give NaN at zero error.", "quantifier": "all real squared errors and parameters", "why_tests_cant": "continuum of inputs", "anchors": ["aslam_optimizer/aslam_backend/src/MEstimatorPolicies.cpp"]}
{"id": "C31", "title": "Matrix archive save/load round-trips", "statement": "Whatever operations produced an archive: if all its names are legal and every matrix and string takes less than 2^32 bytes, save() succeeds and loading the file into an empty archive gives back exactly the same named matrices and strings; loading a selection of a saved selection into any archive replaces exactly the selected names. A file cut at any byte never makes load() throw: at an entry boundary it loads exactly the complete entries, elsewhere it uses bytes it never read. A wrong start or end marker makes load() throw, keeping the entries before it. A matrix of 2^29 doubles is saved but cannot be read back, and saving with append writes nothing.", "quantifier": "all histories of archive operations, all selections, all cut points", "why_tests_cant": "unbounded contents", "anchors": ["Schweizer-Messer/sm_matrix_archive/src/MatrixArchive.cpp:save,load"]}
{"id": "C32", "title": "Matrix archive name operations", "statement": "After any history of set, clear and load-free operations reading a name gives the last value set for it by an operation that legal names admit: names are checked by every setter except createMatrix. Matrices and strings have separate name spaces: clear(name) and overwriting with a matrix leave a string of that name in place, so a name can denote two values and can survive clear(name), and the number of matrices reported counts strings.", "quantifier": "all operation histories and names", "why_tests_cant": "arbitrary histories", "anchors": ["Schweizer-Messer/sm_matrix_archive/src/MatrixArchive.cpp:clear,setScalar,setVector,setString"]}
{"id": "C33", "title": "String replacement, padding and environment substitution", "statement": "replace() with a target different from the replacement terminates and changes exactly the occurrences after the given number of skipped ones; with an equal one it never returns if there is anything to replace. replace_reverse() does the same counted from the end, provided the string has more occurrences than are skipped or does not begin with the target; otherwise it replaces a character it should skip. leading_pad() prepends just enough characters. substituteEnvVars() always terminates and replaces exactly the $(NAME) of defined variables, from left to right, without expanding replacements again.", "quantifier": "all strings", "why_tests_cant": "unbounded strings", "anchors": ["Schweizer-Messer/sm_common/include/sm_common/string_routines.hpp", "Schweizer-Messer/sm_common/src/string_routines.cpp"]}
{"id": "C34", "title": "Hash identifiers round-trip through hex", "statement": "HashId::fromHexString(hexString()) restores the identifier; any 32 hexadecimal digits of either case are read as the id that prints as them in lower case; a string of another length is refused and leaves the id unchanged. The comparison operators are a strict total order that agrees with equality; an id is valid iff it is not the default one. Not every malformed string is refused: 32 non-hexadecimal letters are accepted as the invalid id, and 32 blanks use an uninitialised number.", "quantifier": "all 16-byte ids and all strings", "why_tests_cant": "2^128 ids", "anchors": ["Schweizer-Messer/sm_common/include/sm_common/hash_id.hpp"]}
{"id": "C35", "title": "Property tree keys", "statement": "Every namespace begins and ends with '/', every qualified key is absolute, and empty keys and \"/\" throw. A relative key read through nested namespaces is the absolute key formed by joining the namespaces; absolute keys ignore the namespace. A key that was set reads back under every spelling with the same path, setting keeps all other existing values, and reading with a default returns existing values and stores the default only in the non-const form. doesKeyExist() throws for every ordinary key, set or not.", "quantifier": "all namespaces, keys, values and tree contents", "why_tests_cant": "unbounded strings", "anchors": ["Schweizer-Messer/sm_property_tree/src/PropertyTree.cpp"]}
{"id": "C36", "title": "Restoring an incremental problem's variables", "statement": "In any history without rejected adds and without clear, restoreDesignVariables gives every variable of the problem the value it had when last saved while in the problem (and leaves never-saved ones and all other variables alone). After clear it still overwrites variables that are no longer in the problem.", "quantifier": "all finite histories", "why_tests_cant": "depends on the interleaving of save, restore, add and remove", "anchors": ["aslam_incremental_calibration/aslam_incremental_calibration/src/core/IncrementalOptimizationProblem.cpp:saveDesignVariables,restoreDesignVariables,clear"]}
{"id": "C37", "title": "Marginalized variables come last", "statement": "In every state an estimator reaches with accepted additions, if the marginalized group has variables they are the last ones in the enumeration, and the start index computed for the linear solver is exactly the number of columns of the other active variables.", "quantifier": "all histories of addBatch, removeBatch and reoptimize; all dimensions and activity flags", "why_tests_cant": "the ordering is maintained across arbitrary additions, removals and rejections", "anchors": ["aslam_incremental_calibration/aslam_incremental_calibration/src/core/IncrementalEstimator.cpp:orderMarginalizedDesignVariables,addBatch,reoptimize"]}
{"id": "C38", "title": "Steps are computed from the current linearisation", "statement": "Every numerical solve of a Gauss-Newton or dog-leg run uses the Jacobian and the residuals at the values the pass started from, with every solver; so does Levenberg-Marquardt with a Cholesky solver provided the gain ratio after each kept step is positive; with the sparse Cholesky solver the normal matrix is damped by exactly the square of the current damping. It fails elsewhere: after a rejected step the dense QR solver uses the residuals of the rejected point; a zero gain ratio leaves a stale system; dog-leg takes a step left behind by a failed solve without solving again; the block Cholesky solver does not take its damping off again; the dense QR solver may never apply it.", "quantifier": "all runs, solvers, policies, cost functions and solver answers", "why_tests_cant": "stale state only shows after particular histories of rejections and failures", "anchors": ["aslam_optimizer/aslam_backend/src/LevenbergMarquardtTrustRegionPolicy.cpp:solveSystemImplementation", "aslam_optimizer/aslam_backend/src/DogLegTrustRegionPolicy.cpp:solveSystemImplementation", "aslam_optimizer/aslam_backend/src/DenseQrLinearSystemSolver.cpp:solveSystem", "aslam_optimizer/aslam_backend/src/BlockCholeskyLinearSystemSolver.cpp:solveSystem"]}
{"id": "C39", "title": "Failed iterations escalate the damping", "statement": "In exact arithmetic, with positive parameters and growth factors of at least one, the Levenberg-Marquardt damping stays positive throughout every run, and every pass that follows a failed solve or a rejected step multiplies it by twice the growth factor and doubles the growth factor. The dog-leg policy has no such guarantee: it can retry one and the same rejected step until the iteration limit.", "quantifier": "all runs, histories of failures, cost functions and solver answers", "why_tests_cant": "ranges over all histories of rejected steps", "anchors": ["aslam_optimizer/aslam_backend/src/LevenbergMarquardtTrustRegionPolicy.cpp:solveSystemImplementation", "aslam_optimizer/aslam_backend/src/DogLegTrustRegionPolicy.cpp:solveSystemImplementation", "aslam_optimizer/aslam_backend/src/TrustRegionPolicy.cpp:solveSystem"]}
{"id": "C40", "title": "Dog-leg steps stay inside the trust region", "statement": "In exact arithmetic, as long as no solve has failed, the step of every pass of a dog-leg run is not longer than the trust radius; and when the radius lies between the lengths of the steepest-descent and the Gauss-Newton steps, the chosen point lies on the segment between the two, exactly on the boundary of the trust region.", "quantifier": "all runs, dimensions, vectors and radii", "why_tests_cant": "ranges over all real vectors and all histories", "anchors": ["aslam_optimizer/aslam_backend/src/DogLegTrustRegionPolicy.cpp:solveSystemImplementation"]}
{"id": "C41", "title": "Each design variable receives its own slice of the step", "statement": "The block number and column offset given to an active design variable count the active variables before it, the update hands it exactly the entries of the step from that offset on, times its scaling, and an optimization run never changes an inactive design variable nor any variable's dimension, scaling or activity.", "quantifier": "all lists of design variables, activity patterns, dimensions and steps", "why_tests_cant": "ranges over all activity and dimension patterns", "anchors": ["aslam_optimizer/aslam_backend/src/Optimizer2.cpp:initialize", "aslam_optimizer/aslam_backend/src/Optimizer2.cpp:applyStateUpdate", "aslam_optimizer/aslam_backend/src/Optimizer2.cpp:revertLastStateUpdate"]}
{"id": "C42", "title": "Jacobian containers stand for the differential", "statement": "In exact arithmetic, after any sequence of container operations with matching sizes, applying the stored Jacobians to any displacement of the design variables and summing gives the value the operations denote: additions add their contribution, inactive variables contribute nothing, and the chain rule multiplies everything accumulated so far.", "quantifier": "all operation histories and all displacements", "why_tests_cant": "arbitrary histories, real-valued matrices of any size", "anchors": ["aslam_optimizer/aslam_backend/src/JacobianContainer.cpp"]}
{"id": "C43", "title": "Sparse matrices reproduce dense data", "statement": "Building a sparse matrix from any dense matrix and tolerance gives a well-formed matrix whose dense form keeps exactly the entries with magnitude above the tolerance and is zero elsewhere; with tolerance zero and real entries it is the identity. In every well-formed matrix element access never fails inside the bounds, agrees with the dense form, and throws outside. Known limits shown by witnesses: NaN entries are replaced by zero, and a diagonal-block flag left from earlier use survives, so later products or removals go wrong.", "quantifier": "all matrices, sizes, tolerances and prior contents", "why_tests_cant": "unbounded sizes and sparsity patterns", "anchors": ["aslam_optimizer/aslam_backend/include/aslam_backend/backend/implementation/CompressedColumnMatrix.hpp:fromDense", "aslam_optimizer/aslam_backend/include/aslam_backend/backend/implementation/CompressedColumnMatrix.hpp:toDenseInto", "aslam_optimizer/aslam_backend/include/aslam_backend/backend/implementation/CompressedColumnMatrix.hpp:operator()"]}
{"id": "C44", "title": "Sparse matrix-vector products are the dense products", "statement": "In exact arithmetic, for every well-formed sparse matrix, multiplying by a vector from the right or from the left gives the product with the dense form of the data columns, ignoring an appended diagonal block; vectors of the wrong size throw.", "quantifier": "all well-formed matrices and vectors", "why_tests_cant": "unbounded sizes and sparsity patterns", "anchors": ["aslam_optimizer/aslam_backend/include/aslam_backend/backend/implementation/CompressedColumnMatrix.hpp:rightMultiply", "aslam_optimizer/aslam_backend/include/aslam_backend/backend/implementation/CompressedColumnMatrix.hpp:leftMultiply"]}
{"id": "C45", "title": "Cost, weighted error and weighted Jacobians of an error term agree", "statement": "In exact arithmetic the cost an error term reports equals the squared norm of the weighted error it contributes to the linear system when the M-estimator is enabled there (or is the default one); the weighted Jacobians are the square-root weight times the square-root information times the Jacobians with respect to the scaled variables; and the inner product of weighted error and weighted Jacobian is half the derivative of the robust loss whose derivative is the weight. With the M-estimator disabled in the linear system the reported cost is weighted nevertheless, and under Geman-McClure a move the linear system asks for can raise the reported cost.", "quantifier": "all errors, information matrices, weights, Jacobians and directions", "why_tests_cant": "continuum of inputs", "anchors": ["aslam_optimizer/aslam_backend/src/ErrorTerm.cpp:evaluateError", "aslam_optimizer/aslam_backend/include/aslam_backend/backend/implementation/ErrorTerm.hpp:getWeightedError", "aslam_optimizer/aslam_backend/include/aslam_backend/backend/implementation/ErrorTerm.hpp:getWeightedJacobians"]}
{"id": "C46", "title": "The sparse block matrix behaves as the dense matrix it stands for", "statement": "For every well-formed sparse block matrix: reading a scalar position gives the element of the one block covering it (zero if the block is absent) and throws out of range; the dense copy, transposition into a new matrix, addition, multiplication into a new matrix, scaling, matrix-vector products in both directions, slicing and symmetric block permutation (of all blocks, or of the upper triangle as a symmetric matrix) give the corresponding dense result, and each leaves a well-formed matrix. Not so: transposing into an existing matrix keeps stale blocks, multiplying into an existing matrix adds to it and does not check its layout, slicing an empty range writes out of bounds, and writing a missing block of a non-owning view dereferences null.", "quantifier": "all block layouts, sparsity patterns, contents, vectors, block ranges and permutations", "why_tests_cant": "unboundedly many layouts and patterns", "anchors": ["aslam_optimizer/aslam_sparse_block_matrix/include/aslam_sparse_block_matrix/implementation/sparse_block_matrix.hpp:SparseBlockMatrix::block", "aslam_optimizer/aslam_sparse_block_matrix/include/aslam_sparse_block_matrix/implementation/sparse_block_matrix.hpp:SparseBlockMatrix::transpose", "aslam_optimizer/aslam_sparse_block_matrix/include/aslam_sparse_block_matrix/implementation/sparse_block_matrix.hpp:SparseBlockMatrix::multiply", "aslam_optimizer/aslam_sparse_block_matrix/include/aslam_sparse_block_matrix/implementation/sparse_block_matrix.hpp:SparseBlockMatrix::symmPermutation", "aslam_optimizer/aslam_sparse_block_matrix/include/aslam_sparse_block_matrix/implementation/sparse_block_matrix.hpp:SparseBlockMatrix::slice"]}
{"id": "C47", "title": "Linear solvers hand their libraries exactly the matrix they were given", "statement": "For every well-formed block matrix (square with non-empty blocks where only the upper part is used), converting to compressed columns gives sorted columns and the matrix's own elements (all of them; the upper triangle for CHOLMOD and CSparse; the symmetric completion for the QR solver; the upper triangle for the dense solver), never needs more room than is allocated, and re-extracting only the values yields them in the same order. For every history of init, solve and block-solve calls in which init is called whenever the block pattern changes, no call touches memory it does not own, and each solve passes the library the matrix of that call, under a symbolic factorisation of its own pattern. Block orderings expand to scalar orderings keeping blocks contiguous, and the inverse ordering is the inverse. Not so: without init after a pattern change the values overflow the array or are silently read as another matrix; an empty system is written through a null pointer; the dense solver writes out of bounds for a tall matrix.", "quantifier": "all matrices, patterns, call histories, factorisation outcomes and orderings", "why_tests_cant": "unboundedly many patterns and histories; capacity growth depends on the whole history", "anchors": ["aslam_optimizer/aslam_sparse_block_matrix/include/aslam_sparse_block_matrix/linear_solver_cholmod.h:fillCholmodExt", "aslam_optimizer/aslam_sparse_block_matrix/include/aslam_sparse_block_matrix/linear_solver_csparse.h:fillCSparse", "aslam_optimizer/aslam_sparse_block_matrix/include/aslam_sparse_block_matrix/linear_solver_spqr.h:fillCholmodExt", "aslam_optimizer/aslam_sparse_block_matrix/include/aslam_sparse_block_matrix/linear_solver_dense.h:solve", "aslam_optimizer/aslam_sparse_block_matrix/include/aslam_sparse_block_matrix/implementation/sparse_block_matrix.hpp:fillCCS", "aslam_optimizer/aslam_sparse_block_matrix/src/matrix_structure.cpp:MatrixStructure::alloc"]}
{"id": "C48", "title": "Marginal covariances recovered from a Cholesky factor are entries of the inverse", "statement": "For every sparse lower-triangular factor L of a symmetric matrix H (each column starting with its non-zero diagonal, H possibly reordered by a permutation, up to 46340 variables), in exact arithmetic the covariance recovery terminates and returns the inverse of H: any single entry, all diagonal blocks written completely into the caller's memory, or exactly the requested blocks of a sparse block matrix, for every block layout; also with the permutation taken from the solver and inverted by it. Not so: from 46341 variables on, the lookup index overflows int.", "quantifier": "all factor sizes, sparsity patterns, values, permutations, block layouts and requested block sets", "why_tests_cant": "recursion depth and visiting order depend on the sparsity pattern; unboundedly many patterns", "anchors": ["aslam_optimizer/aslam_sparse_block_matrix/src/marginal_covariance_cholesky.cpp:MarginalCovarianceCholesky::computeEntry", "aslam_optimizer/aslam_sparse_block_matrix/src/marginal_covariance_cholesky.cpp:MarginalCovarianceCholesky::computeCovariance", "aslam_optimizer/aslam_sparse_block_matrix/include/aslam_sparse_block_matrix/linear_solver_cholmod.h:solvePattern"]}
{"id": "C49", "title": "The assembled block system is the normal equations of the problem", "statement": "For every list of design variables and every list of error terms whose Jacobians fit them, in exact arithmetic building the system leaves, whatever the solver's matrix held before, the sum of J^T J over all terms in the blocks on and above the diagonal, zero below, exactly the blocks of pairs of design variables that share a term added to the stored pattern, and minus the sum of J^T e as right-hand side (J and e weighted by the square-root information and, if asked for, the robust weight; J scaled per design variable). The symmetric matrix it stands for is positive semidefinite with quadratic form |Jx|^2, and any step solving the system minimises the linearised weighted cost. Not so: the squared length of J*rhs handed to the dog-leg policy is computed from the stored half only.", "quantifier": "all numbers and dimensions of design variables, all error terms, weights, scalings and previous contents of the solver", "why_tests_cant": "must hold for every pattern of shared design variables and every history of rebuilds", "anchors": ["aslam_optimizer/aslam_backend/src/JacobianContainer.cpp:JacobianContainer::evaluateHessian", "aslam_optimizer/aslam_backend/src/ErrorTermDs.cpp:ErrorTermDs::buildHessianImplementation", "aslam_optimizer/aslam_backend/include/aslam_backend/backend/implementation/ErrorTerm.hpp:ErrorTermFs::buildHessianImplementation", "aslam_optimizer/aslam_backend/src/BlockCholeskyLinearSystemSolver.cpp:BlockCholeskyLinearSystemSolver::buildSystem", "aslam_optimizer/aslam_backend/src/BlockCholeskyLinearSystemSolver.cpp:BlockCholeskyLinearSystemSolver::rhsJtJrhs"]}
{"id": "C50", "title": "Calibration targets have the geometry and indexing their users compute with", "statement": "For every target size, in exact arithmetic: the constructor refuses non-positive spacings and otherwise writes every point; point cols*r+c of a checkerboard is (rowSpacing*r, colSpacing*c, 0), of a symmetric circle grid (s*r, s*c, 0), of an asymmetric one ((2c + r mod 2)*s, r*s, 0); on an Aprilgrid the four corners of tag id are the corners of a square of side tagSize, counter-clockwise, whose origin is (column, row) times (1+spacing)*tagSize. Row and column determine the index and back, the tags' corners cover every grid index exactly once, and no two points coincide. Not so: pointToGridCoordinates returns (column, row), so feeding it to gridCoordinatesToPoint does not return the index and can leave the grid; the checkerboard's row spacing, documented as y, is used along x; getPointDataPointer throws for every valid index and returns out-of-range pointers for the others.", "quantifier": "all numbers of rows and columns, spacings, tag sizes, indices and initial memory contents", "why_tests_cant": "must hold for every board size and index, not the few boards in the tests", "anchors": ["aslam_cv/aslam_cameras/src/GridCalibrationTargetBase.cpp:GridCalibrationTargetBase::pointToGridCoordinates", "aslam_cv/aslam_cameras/src/GridCalibrationTargetBase.cpp:GridCalibrationTargetBase::getPointDataPointer", "aslam_cv/aslam_cameras/src/GridCalibrationTargetCheckerboard.cpp:createGridPoints", "aslam_cv/aslam_cameras/src/GridCalibrationTargetCirclegrid.cpp:createGridPoints", "aslam_cv/aslam_cameras_april/src/GridCalibrationTargetAprilgrid.cpp:createGridPoints"]}
{"id": "C51", "title": "Observations report exactly the corners seen; extraction and outlier removal keep corners and indices aligned", "statement": "After any history of updates, removals and target changes, every query of an observation answers from the corners seen now: indices increasing, image and target corners aligned with them, out-of-range accesses refused. Aprilgrid extraction with empty outputs uses exactly the good detections with identity in range and corners away from the border; with too few it reports failure, with two of the same identity the process exits, otherwise it writes each refined corner at its grid index and flags it seen iff refinement moved it by at most the limit, and all other corners unseen. The detector's result sees exactly those corners, and a new observation has a pose iff the search succeeded. With filtering on, exactly the corners with reprojection error above mean + sigma*deviation and above the threshold are removed, which is none or fewer than one in sigma^2. Not so: reused output flags keep corners of an earlier image, and a reused observation keeps its old pose when the search fails.", "quantifier": "all targets, histories, detections, refinements, pose estimates, projections and detector options", "why_tests_cant": "depends on the history of the observation and on every combination of detected tags and errors", "anchors": ["aslam_cv/aslam_cameras/src/GridCalibrationTargetObservation.cpp:GridCalibrationTargetObservation::setTarget", "aslam_cv/aslam_cameras/src/GridCalibrationTargetObservation.cpp:GridCalibrationTargetObservation::getCornersIdx", "aslam_cv/aslam_cameras/src/GridDetector.cpp:GridDetector::findTarget", "aslam_cv/aslam_cameras_april/src/GridCalibrationTargetAprilgrid.cpp:computeObservation"]}
{"id": "C52", "title": "Unit quaternions represent rotations faithfully", "statement": "Quaternion composition is associative with identity, the conjugate of a unit quaternion is its inverse, lengths multiply, and both matrix forms of the product agree with it. A unit quaternion converts to a proper rotation matrix (orthogonal, determinant one), composition becomes the matrix product, the conjugate the transpose, and rotating a vector by the quaternion equals multiplying by the matrix. Converting any proper rotation matrix to a quaternion gives a unit quaternion with non-negative scalar part that converts back to the same matrix; two unit quaternions give the same matrix iff they are equal up to sign.", "quantifier": "all quaternions, all unit quaternions, all proper rotation matrices, all vectors", "why_tests_cant": "the matrix-to-quaternion conversion has four branches selected by the input; equality must hold on the whole rotation group", "anchors": ["Schweizer-Messer/sm_kinematics/src/quaternion_algebra.cpp:qplus", "Schweizer-Messer/sm_kinematics/src/quaternion_algebra.cpp:quat2r", "Schweizer-Messer/sm_kinematics/src/quaternion_algebra.cpp:r2quat", "Schweizer-Messer/sm_kinematics/src/quaternion_algebra.cpp:quatRotate"]}
{"id": "C53", "title": "Axis-angle vectors, rotation matrices and quaternions convert consistently; interpolation takes the short way", "statement": "For angles from 2^-13 up, converting an axis-angle vector gives a unit quaternion and a matrix that rotate by Rodrigues' formula and agree with each other; converting back recovers the vector up to two pi, and the logarithm is undefined only at minus the identity. Updating a quaternion composes it with that exponential. Matrices built from axis-angle vectors are always proper rotations, and the vector is recovered away from zero and a half turn. Spherical interpolation of unit quaternions returns the end points exactly and otherwise follows one axis from the first to the nearer representative of the second, by at most a half turn. Not so: for nonzero angles below 2^-13 the quaternion is longer than one (squared length at most 1+theta^4/24), the logarithm there drops its quadratic term (error at most 8/3 n^3), a half turn converts back to the zero vector, and the angle-axis form ignores negative angles.", "quantifier": "all vectors, unit quaternions, rotation matrices and interpolation parameters", "why_tests_cant": "series branches only apply in tiny ranges tests do not distinguish from rounding; equalities over a continuum", "anchors": ["Schweizer-Messer/sm_kinematics/src/quaternion_algebra.cpp:axisAngle2quat", "Schweizer-Messer/sm_kinematics/src/quaternion_algebra.cpp:quat2AxisAngle", "Schweizer-Messer/sm_kinematics/src/quaternion_algebra.cpp:qslerp", "Schweizer-Messer/sm_kinematics/src/rotations.cpp:axisAngle2R", "Schweizer-Messer/sm_kinematics/src/rotations.cpp:R2AxisAngle"]}
{"id": "C54", "title": "Jacobians of the rotation maps are the true derivatives", "statement": "A quaternion moving on the unit sphere turns with angular velocity quatS(q) qdot, and quatInvS is the inverse of that map with values tangent to the sphere. The quaternion update Jacobian is the derivative of the update in every direction at a zero step. The exponential Jacobian is the derivative of the exponential along any differentiable curve with angle above 2^-13, and the exponential and logarithm difference matrices are inverse to each other there; for smaller angles their coefficients are those of the true matrices, and the two are inverse to each other, up to the fourth power of the angle. Both logarithm Jacobians are the derivative of the logarithm along any curve of unit quaternions (the second where the scalar part is not zero).", "quantifier": "all differentiable curves of vectors and unit quaternions, all directions", "why_tests_cant": "finite differences on samples cannot establish a derivative identity on a continuum", "anchors": ["Schweizer-Messer/sm_kinematics/src/quaternion_algebra.cpp:quatS", "Schweizer-Messer/sm_kinematics/src/quaternion_algebra.cpp:quatJacobian", "Schweizer-Messer/sm_kinematics/src/quaternion_algebra.cpp:quatExpJacobian", "Schweizer-Messer/sm_kinematics/src/quaternion_algebra.cpp:quatLogJacobian", "Schweizer-Messer/sm_kinematics/src/quaternion_algebra.cpp:logDiffMat"]}
{"id": "C55", "title": "Three-parameter rotations map to rotations and back", "statement": "The three Euler conventions are the products of elementary rotations in the order of their names, and every parameter of every convention (Euler ZYX, yaw-pitch-roll, ZXY, roll-pitch-heading, Rodrigues, rotation vector) gives a proper rotation matrix. Away from gimbal lock the angles are recovered from the matrix and the matrix from the angles; Rodrigues parameters and rotation vectors are recovered for angles outside 1e-14 of zero and of a half turn, and the rotation vector is the axis times the angle. At gimbal lock, and at half turns for the two vector parameterisations, reading the parameters back does not recover the rotation. angleMod returns an angle in [-pi,pi] differing by whole turns.", "quantifier": "all real parameters and all rotation matrices", "why_tests_cant": "the identities are over a continuum with branch cuts and singular sets of measure zero", "anchors": ["Schweizer-Messer/sm_kinematics/src/EulerAnglesZYX.cpp", "Schweizer-Messer/sm_kinematics/src/EulerAnglesYawPitchRoll.cpp", "Schweizer-Messer/sm_kinematics/src/EulerAnglesZXY.cpp", "Schweizer-Messer/sm_kinematics/src/EulerRodriguez.cpp", "Schweizer-Messer/sm_kinematics/src/RotationVector.cpp", "Schweizer-Messer/sm_kinematics/src/rotations.cpp:angleMod"]}
{"id": "C56", "title": "Parameter rates, angular velocities and their Jacobians", "statement": "For every parameterisation the S matrix times the parameter rate is the angular velocity of the rotation along any differentiable parameter curve (rotation vectors: above length 1e-14), and the 3x6 Jacobian returned with the angular velocity is its derivative with respect to the parameter and the rate along any pair of differentiable curves. The rotation-vector Jacobian is computed for every vector except zero, where the code divides by zero. parametersToInverseSMatrix is the two-sided inverse of S unless the vector is a whole number of turns.", "quantifier": "all differentiable curves of parameters and rates", "why_tests_cant": "finite differences on samples cannot establish a derivative identity on a continuum; the generated rotation-vector expressions have hundreds of terms", "anchors": ["Schweizer-Messer/sm_kinematics/src/RotationVector.cpp:angularVelocityAndJacobian", "Schweizer-Messer/sm_kinematics/src/RotationVector.cpp:parametersToInverseSMatrix", "Schweizer-Messer/sm_kinematics/src/EulerRodriguez.cpp:angularVelocityAndJacobian", "Schweizer-Messer/sm_kinematics/src/EulerAnglesZXY.cpp:angularVelocityAndJacobian", "Schweizer-Messer/sm_kinematics/src/EulerAnglesZYX.cpp:angularVelocityAndJacobian", "Schweizer-Messer/sm_kinematics/src/EulerAnglesYawPitchRoll.cpp:angularVelocityAndJacobian"]}
{"id": "C57", "title": "Rigid transformations form a group with consistent Jacobians, covariances and interpolation", "statement": "For transformations with unit quaternions: composition, inverse and identity satisfy the group laws exactly, stand for the composed and inverted rigid motions of points (3-vectors, homogeneous vectors and homogeneous points alike), and keep quaternions of length one; reading a transformation back from its matrix gives the same one up to the sign of the quaternion. The Jacobians boxMinus, boxTimes, S, transformationAndJacobian and inverseTransformationAndJacobian are the derivatives of point transformation, composition, inversion and oplus under left perturbations. The covariance of an uncertain product, inverse, or transformed point is the first-order propagation through those Jacobians, stays symmetric positive semidefinite, composition of uncertain transformations is associative, inversion is an involution reversing products, and the oplus covariance converts both ways without loss. The Euler form round-trips away from gimbal lock. Interpolation is total, symmetric in its arguments for distinct times, clamps outside the interval and inside moves the translation on a line and the rotation about one axis.", "quantifier": "all unit-quaternion transformations, points, covariances, times, and all differentiable curves of transformations", "why_tests_cant": "the laws and derivative identities range over all real rotations, translations and directions of perturbation; tests sample a few and compare against finite differences", "anchors": ["Schweizer-Messer/sm_kinematics/src/Transformation.cpp: operator*, inverse, oplus, S, interpolateTransformations, slerpTransformations", "Schweizer-Messer/sm_kinematics/src/transformations.cpp: boxPlus, boxMinus, boxTimes, inverseTransform, toTEuler, fromTEuler, transformationAndJacobian, inverseTransformationAndJacobian", "Schweizer-Messer/sm_kinematics/src/UncertainTransformation.cpp: operator*, inverse, UOplus, setUOplus"]}
{"id": "C58", "title": "Homogeneous points: arithmetic, Jacobians and covariances", "statement": "Adding, subtracting, scaling, normalising and transforming homogeneous points has the effect of the same operation on the Euclidean points they stand for. The Jacobians of the Euclidean conversion, of normalisation and of oplus are the derivatives of the values they are returned with. The covariance of a sum of uncertain points, the Euclidean covariance, the covariance after normalisation and the one set from the minimal (oplus) form are first-order propagations through those derivatives, and the minimal form round-trips for unit points. The covariance of a difference of uncertain points, and of a sum or difference with a certain point, is right when it has no part in the homogeneous coordinate (and the certain point has homogeneous coordinate 1), but is wrong in general: there are inputs with reported variance 1 where the first-order variance is 9, and 1/4 where it is 1.", "quantifier": "all homogeneous points with non-zero homogeneous coordinate, all covariances, all differentiable curves of points", "why_tests_cant": "the derivative identities and the covariance propagation are statements about all points and directions; the existing tests do not compare covariances of differences with sampled ones", "anchors": ["Schweizer-Messer/sm_kinematics/src/HomogeneousPoint.cpp: operator+, operator-, toEuclideanAndJacobian, toHomogeneousAndJacobian, oplus", "Schweizer-Messer/sm_kinematics/src/UncertainHomogeneousPoint.cpp: operator+, operator-, U3, U_av_form, setUOplus, normalize", "Schweizer-Messer/sm_kinematics/src/homogeneous_coordinates.cpp: fromHomogeneous, toHomogeneousPlus, toHomogeneousMinus"]}
{"id": "C59", "title": "Lens distortions, their Jacobians and undistortion", "statement": "For no distortion, radial-tangential, equidistant and field-of-view distortion: the Jacobian returned together with the distorted point is the derivative of the distortion along every differentiable motion of the point (off the axis for equidistant, away from the switching radius for field-of-view), and the coefficient Jacobian is the derivative along every motion of the coefficients (outside the small disc for field-of-view). Radial-tangential undistortion returns one exact Newton step past some point, is exact when the point is a fixed point or all coefficients are zero, and its Jacobian is the velocity of every differentiable local inverse. Equidistant undistortion of a distorted point is the point itself scaled by tan(computed angle)/tan(true angle), and the angle error is at most q^20 times the initial one whenever the iteration contracts by q. Field-of-view undistortion is exact both ways up to 89 degrees outside the small disc. Known violations are stated: five Newton rounds may leave an error of 0.39 or produce no number, equidistant undistortion and all equidistant Jacobians are not a number on the optical axis, an oscillating iteration mirrors a point, field-of-view undistortion beyond 89 degrees returns its input, its coefficient Jacobian is wrong in the small disc, and a rejected parameter stays stored. Coefficients read back as written and updates add.", "quantifier": "all points of the normalised plane, all coefficients (field-of-view: all accepted parameters), all differentiable curves", "why_tests_cant": "The unit tests compare Jacobians with finite differences and undistort random points for a few coefficient vectors; they never hit the axis, the switching radii, non-contracting coefficients or the 89 degree limit.", "anchors": ["aslam_cv/aslam_cameras/include/aslam_cameras/cameras/implementation/RadialTangentialDistortion.hpp: distort, undistort, distortParameterJacobian", "aslam_cv/aslam_cameras/include/aslam_cameras/cameras/implementation/EquidistantDistortion.hpp", "aslam_cv/aslam_cameras/include/aslam_cameras/cameras/implementation/FovDistortion.hpp", "aslam_cv/aslam_cameras/include/aslam_cameras/cameras/implementation/NoDistortion.hpp", "aslam_cv/aslam_cameras/src/FovDistortion.cpp"]}
{"id": "C60", "title": "Pinhole projection: visibility, Jacobians, round trips and parameter changes", "statement": "For every distortion and all intrinsics: a point is reported visible exactly when it is in front of the camera and its image lies inside the sensor; the overloads with and without Jacobian return the same image and flag; the image depends only on the ray (for homogeneous points, under any non-zero scaling when the fourth coordinate is not zero). The point Jacobian, the intrinsics Jacobian and the distortion-coefficient Jacobian are the derivatives of the image along every differentiable motion. With an exact undistortion, lifting the image of a point gives the point divided by its depth, and projecting the lifted ray of a pixel gives the pixel with the same flag. The pixel-to-ray Jacobian is right when both focal lengths agree or the distortion does not mix the axes. Cached reciprocals stay in step through any history of updates; parameters read back as written; scaling the intrinsics scales every image and keeps visibility when the new resolutions are whole numbers. Known violations are stated: the pixel-to-ray Jacobian is wrong otherwise, the homogeneous overload with Jacobian reports a visible point with negative fourth coordinate as invisible, and resizing truncates the resolution so that a visible point can become invisible.", "quantifier": "all points, pixels, intrinsics, distortions and differentiable curves; all histories of parameter changes", "why_tests_cant": "The camera test harness checks random visible points of one test camera with equal focal lengths, which hides the wrong factor order; it never checks signs of the fourth coordinate together with the flag or odd resolutions.", "anchors": ["aslam_cv/aslam_cameras/include/aslam_cameras/cameras/implementation/PinholeProjection.hpp: euclideanToKeypoint, homogeneousToKeypoint, keypointToEuclidean, euclideanToKeypointIntrinsicsJacobian, euclideanToKeypointDistortionJacobian, update, setParameters, resizeIntrinsics, isValid"]}
{"id": "C61", "title": "Omnidirectional projection: field of view, Jacobians, round trips and parameter changes", "statement": "For every distortion, every mirror parameter xi and all intrinsics: a point p with norm d is projected exactly when z + xi d > 0 and d + xi z > 0, and is reported visible exactly when moreover its image is inside the sensor; all overloads, Euclidean and homogeneous, with and without Jacobian, agree on image and flag; the image depends only on the ray (for homogeneous points on the line). The point Jacobian (also for homogeneous points of either sign), the intrinsics Jacobian (xi, focal lengths, centre), the distortion-coefficient Jacobian and the pixel-to-ray Jacobian are the derivatives of the corresponding maps along every differentiable motion. With an exact undistortion, lifting the image of a point gives p / (z + xi d), and projecting a lifted pixel gives the pixel back for xi > -1 except on the circle bounding the liftable disc. The cached temporaries stay in step through any history of parameter changes; parameters read back as written; resizing to whole resolutions scales every image and keeps visibility. Random pixels of a camera without distortion are liftable for xi <= 1 and xi^2 >= 2. Known violations are stated: a pixel on the boundary circle is declared liftable but its point does not project, random pixels for 1 < xi^2 < 2 can be non-liftable because the squared radius is used as radius, and for xi = 1 no finite random pixel is produced.", "quantifier": "all points, pixels, parameters, distortions and differentiable curves; all histories of parameter changes", "why_tests_cant": "The camera test harness checks one test camera with finite differences at random visible points; the field-of-view test switches formula at xi = 1 and its exactness, the boundary circle and the radius of the random pixels are not reached by sampling.", "anchors": ["aslam_cv/aslam_cameras/include/aslam_cameras/cameras/implementation/OmniProjection.hpp: euclideanToKeypoint, homogeneousToKeypoint, keypointToEuclidean, isLiftable, isUndistortedKeypointValid, euclideanToKeypointIntrinsicsJacobian, euclideanToKeypointDistortionJacobian, updateTemporaries, update, setParameters, resizeIntrinsics, createRandomKeypoint"]}
{"id": "C62", "title": "Extended unified projection: field of view, Jacobians, round trips, parameters and initialisation", "statement": "For every alpha, every beta > 0 and all intrinsics, with d = sqrt(beta (x^2 + y^2) + z^2): a point is projected exactly when alpha d + (1 - alpha) z > 0 and (1 - alpha) d + alpha z > 0, and is reported visible exactly when moreover its image is inside the sensor; all overloads agree on image and flag; the image depends only on the ray (for homogeneous points on the line). The point Jacobian (also for homogeneous points of either sign) and the pixel-to-ray Jacobian are the derivatives along every differentiable motion. For 0 <= alpha <= 1 lifting the image of a point gives its unit vector, and projecting a lifted pixel gives the pixel back except on the circle bounding the liftable disc. The intrinsics Jacobian is the derivative in all six parameters when the two focal lengths are equal. The cached temporaries stay in step through any history of parameter changes; parameters read back as written; resizing to whole resolutions scales every image and keeps visibility. A camera initialised from an omnidirectional camera with xi = 1 gives every point the same image and flag. Random pixels are liftable for alpha <= 1/2 or beta (2 alpha - 1) >= 1. Known violations are stated: the intrinsics Jacobian is wrong for different focal lengths (second row scaled by the first focal length), a pixel on the boundary circle is declared liftable but its point is refused, random pixels are otherwise not always liftable and never finite for alpha = 1/2.", "quantifier": "all points, pixels, parameters and differentiable curves; all histories of parameter changes", "why_tests_cant": "The camera test harness checks one test camera with equal focal lengths at random visible points by finite differences, so a focal length used in the wrong row, the exact border of the field of view and the boundary circle are never sampled.", "anchors": ["aslam_cv/aslam_cameras/include/aslam_cameras/cameras/implementation/ExtendedUnifiedProjection.hpp: euclideanToKeypoint, homogeneousToKeypoint, keypointToEuclidean, isLiftable, isUndistortedKeypointValid, euclideanToKeypointIntrinsicsJacobian, updateTemporaries, update, setParameters, resizeIntrinsics, createRandomKeypoint, initializeIntrinsics"]}
{"id": "C63", "title": "Double sphere projection: field of view, Jacobians, round trips, parameters and special cases", "statement": "Let w = alpha/(1-alpha) for alpha <= 1/2 and (1-alpha)/alpha otherwise, and let the border be c = (w + xi)/sqrt(2 w xi + xi^2 + 1). For 0 <= alpha <= 1, -1 < xi <= 1 and c >= 0: a point p is projected exactly when z > -c |p|, it then lies in the region where the model is one to one on rays, and it is reported visible exactly when moreover its image is inside the sensor; all overloads agree on image and flag; the image depends only on the ray (for homogeneous points on the line). The point Jacobian (also for homogeneous points of either sign), the Jacobian in all six parameters and the pixel-to-ray Jacobian are the derivatives along every differentiable motion. Lifting the image of a point gives its unit vector; a lifted pixel gives a unit vector in the one-to-one region which projects back to the pixel when it is inside the border (except on the circle bounding the liftable disc). The cached temporaries stay in step through any history of parameter changes; parameters read back as written; resizing to whole resolutions scales every image and keeps visibility. For xi = 0 the camera equals the extended unified camera with beta = 1, and initialisation from an omnidirectional camera with xi = 1 keeps every image and flag. Random pixels are always liftable. Known violations are stated: for c < 0 points outside the region are projected to the wrong side of the image, and some pixels inside the image lift to points the projection refuses.", "quantifier": "all points, pixels, parameters and differentiable curves; all histories of parameter changes", "why_tests_cant": "The camera test harness samples one test camera; that the field-of-view test never admits an ambiguous point needs an argument over all parameters, and the cases where it is too narrow or too wide are not sampled.", "anchors": ["aslam_cv/aslam_cameras/include/aslam_cameras/cameras/implementation/DoubleSphereProjection.hpp: euclideanToKeypoint, homogeneousToKeypoint, keypointToEuclidean, isLiftable, isUndistortedKeypointValid, euclideanToKeypointIntrinsicsJacobian, updateTemporaries, update, setParameters, resizeIntrinsics, createRandomKeypoint, initializeIntrinsics"]}
{"id": "C64", "title": "A B-spline evaluates to the sum of its coefficients times the Cox-de Boor basis functions", "statement": "For a B-spline of any order k >= 2 whose knots do not decrease: setKnotsAndCoefficients accepts exactly the knot sequences with at least 2k knots and (knots - k) coefficient columns and stores them unchanged; at every time of [t_min, t_max) the value is the sum over all coefficients of coefficient times Cox-de Boor basis function, and at t_max (last segment not empty) it is the limit from the left; the value stays inside the convex hull of the coefficients coordinate by coordinate; only the k coefficients named by localVvCoefficientVectorIndices matter for the value and all derivatives; times before t_min, or 1e-10 or more after t_max, throw; the local basis vector holds the basis functions, which are non-negative and sum to one, and the cumulative vector their tail sums. Known violations: a new spline accepts decreasing knots, replacing the knots by fewer ones reads past the end of the new sequence, the value at t_max is zero when the last two knots of the interval coincide, and getBiVector drops the basis functions of the last k-1 coefficients.", "quantifier": "every order, knot sequence, coefficient matrix and time (for the last 1e-10 of the interval: those in the last knot segment)", "why_tests_cant": "The basis matrices are built by a recursion over the order with divisions by knot differences; tests evaluate a few uniform splines, while the identity must hold for every order, every spacing including repeated knots, and every time.", "anchors": ["aslam_nonparametric_estimation/aslam_bsplines/src/BSpline.cpp: setKnotsAndCoefficients, verifyKnotSequence, initializeBasisMatrices, M, d_0, d_1, computeTIndex, computeUAndTIndex, computeU, evalD, localVvCoefficientVectorIndices, getLocalBiVector, getLocalCumulativeBiVector", "aslam_nonparametric_estimation/aslam_bsplines/include/aslam_bsplines/BSpline.hpp: BSpline, BiVector, getBiVector"]}
{"id": "C65", "title": "B-spline derivatives are the derivatives of the curve, and evaluation Jacobians are exact", "statement": "For a B-spline of order k with non-decreasing knots and a last segment of at least 1e-10: evalD(t, d) succeeds for every derivative order d >= 0 and every t of [t_min, t_max]; strictly between two neighbouring knots evalD(., d+1) is the derivative of evalD(., d); with distinct knots evalD(., d) is continuous on (t_min, t_max) for d <= k-2 and has derivative evalD(., d+1) there for d+1 <= k-2, knots included; derivatives of order k and above are zero; evalDAndJacobian returns the value of evalD, the matrix of Phi and the indices of localCoefficientVectorIndices (all inside the coefficient vector), the value equals Phi times localCoefficientVector, and replacing the coefficient vector by any other changes the value by exactly the Jacobian times the change of the named coefficients.", "quantifier": "every order, knot sequence, coefficient matrix, derivative order, time and replacement coefficient vector", "why_tests_cant": "Differentiability and continuity across knots are limit statements about a piecewise polynomial given by matrices; finite differences at sample times neither reach the knots nor cover all orders and spacings.", "anchors": ["aslam_nonparametric_estimation/aslam_bsplines/src/BSpline.cpp: evalD, evalDAndJacobian, computeU, dmul, Phi, localCoefficientVector, localCoefficientVectorIndices, setCoefficientVector, coefficientVector"]}
{"id": "C66", "title": "B-spline integrals and quadratic integral matrices are the integrals of the curve", "statement": "For a B-spline of order k with non-decreasing knots and a last segment of at least 1e-10: evalIntegral(t1, t2) with both times in [t_min, t_max] is, coordinate by coordinate, the integral of the curve from t1 to t2 in either direction, where a limit at most 1e-16 after a knot is replaced by that knot; curveQuadraticIntegral(W, d) and its diagonal version return the matrix Q for which x^T Q y is the integral over the whole curve of the W-weighted product of the d-th derivatives of the curves with coefficient vectors x and y, for all x and y; segmentQuadraticIntegral and its diagonal version do the same for one knot segment and its k coefficient columns; a W whose entries differ from their mirror image by more than 1e-14 throws; with non-negative diagonal weights the form is symmetric and never negative.", "quantifier": "every order, knot sequence, derivative order, weight matrix, coefficient vector and pair of times", "why_tests_cant": "The matrices are products of Hilbert-like, derivative and basis matrices with block layouts; a test compares a few numerical quadratures, while the identity must hold for all orders, knots, dimensions and coefficient vectors.", "anchors": ["aslam_nonparametric_estimation/aslam_bsplines/src/BSpline.cpp: evalIntegral, Vi, Dii, Bij, Mi, segmentQuadraticIntegral, segmentQuadraticIntegralDiag, curveQuadraticIntegral, curveQuadraticIntegralDiag"]}
{"id": "C67", "title": "Fitting a B-spline to points returns the curve of least cost", "statement": "initSpline3 and initSplineSparse, given at least two times that do not decrease (as many as points), at least one segment of at least 1e-10, a dimension of at least one, a non-negative lambda and a linear solver that solves non-singular systems, return a spline on evenly spaced knots that runs from the first to the last time; if the data determine the coefficients (only the zero coefficient vector has zero cost for zero points), no other coefficient vector has a smaller cost, where the cost is the sum of the squared distances to the points plus lambda times the integral of the squared second (order 2: first) derivative; initSplineSparseKnots does the same on the knots it is given, provided the times lie in their interval; mismatched counts, fewer than two times, decreasing times and zero segments throw.", "quantifier": "every order, dimension, number of segments, point set, lambda and solver meeting the contract", "why_tests_cant": "Optimality compares with every other coefficient vector; tests check the residual of a few fits.", "anchors": ["aslam_nonparametric_estimation/aslam_bsplines/src/BSpline.cpp: initSpline3, initSplineSparse, initSplineSparseKnots, curveQuadraticIntegralDiag, Phi, localCoefficientVectorIndices"]}
{"id": "C68", "title": "Building, extending, shortening and locally changing a B-spline", "statement": "initConstantSpline gives, for a non-empty interval, at least one segment and a non-empty constant, a spline on exactly that interval whose value is the constant at every time and whose derivatives all vanish, and throws otherwise. setLocalCoefficientVector stores a vector that localCoefficientVector returns unchanged, alters no coefficient outside the reported columns, and throws for a vector of another length or a time outside the interval. addCurveSegment to a later time keeps the start time, all knots up to the old end, all coefficients before the last and the value at the old end, ends at the new time in the new point, and throws for a time not past the end or another dimension; values before the knot that lies order - 2 knots before the old end do not change (for order 2: the whole old curve), but from order 4 on values in the last old segments do change (known violation: knots past the old end are respaced). removeCurveSegment leaves all values and derivatives on the remaining interval unchanged when the knots are evenly spaced, but changes values for other knots (known violation: the basis matrices are not moved with the knots).", "quantifier": "every order, dimension, knot sequence, coefficients, time and end point; every solver meeting the contract", "why_tests_cant": "The claims range over all times, knots and coefficients; the respacing and the stale basis matrices show only for particular orders and uneven knots.", "anchors": ["aslam_nonparametric_estimation/aslam_bsplines/src/BSpline.cpp: initConstantSpline, addCurveSegment, removeCurveSegment, setLocalCoefficientVector, localCoefficientVector"]}
{"id": "C69", "title": "Pose curves: one rigid pose per time, exact Jacobians, velocities; two angular rates that are wrong", "statement": "For a pose curve over any of the five rotation parametrisations and every time of its interval, transformation returns a rigid motion whose parts are position and orientation, and inverseTransformation and inverseOrientation are its inverses. For every motion of the curve coefficients, the Jacobians of transformationAndJacobian, inverseTransformationAndJacobian, transformVectorAndJacobian, orientationAndJacobian, inverseOrientationAndJacobian, linearAccelerationAndJacobian, angularVelocityAndJacobian and angularVelocityBodyFrameAndJacobian times the rates of the coefficients they name are the rates of the returned values. Between knots linearVelocity and linearAcceleration are derivatives of position, and angularVelocity and angularVelocityBodyFrame are the angular velocity of the orientation in the two frames. addPoseSegment keeps the end pose and ends in the given pose. However angularVelocityAndJacobian returns the negative of angularVelocity, and angularAccelerationBodyFrame is not the derivative of angularVelocityBodyFrame.", "quantifier": "every spline order, knot sequence, coefficient matrix, time, parametrisation (rotation vectors away from zero) and differentiable motion of the coefficients", "why_tests_cant": "Jacobian tests compare finite differences at sample coefficients and times; frame and sign conventions hold only if they hold for all", "anchors": ["aslam_nonparametric_estimation/aslam_bsplines/src/BSplinePose.cpp: transformationAndJacobian, inverseTransformationAndJacobian, angularVelocity, angularVelocityAndJacobian, angularVelocityBodyFrameAndJacobian, angularAccelerationBodyFrame, addPoseSegment"]}
{"id": "C70", "title": "Expression trees: Jacobians of rotations, points, transformations and scalars of any shape are the derivatives of the values", "statement": "For every expression built from rotation, Euclidean point, homogeneous point, scalar, direction and matrix design variables with the operators of the backend expressions library (products, inverses, sums, cross and element-wise products, scaling, conversions between rotations, transformations, homogeneous and Euclidean points, rotation parameters), evaluateJacobians adds exactly the derivative of the value along the updates of all design variables, with and without a chain-rule matrix, provided quaternions have length one, constant transformations are rigid, homogeneous points are not at infinity, no scalar is divided by zero and rotation parameters are read away from their singularities. Values of rotation and transformation expressions are rotations and rigid transformations. Jacobians are only added for design variables reported by getDesignVariables and with as many columns as the variable has; the value depends on no other variable. The Euclidean and transformation error terms have the Jacobians of their errors (the latter away from zero and from a half turn). Known violations: a product evaluated before the design variables changed gives the Jacobian at the old state; MatrixBasic without a chain rule adds a three-column identity whatever its number of coefficients.", "quantifier": "all expression trees, all values of the design variables meeting the stated conditions, all directions of motion, all chain-rule matrices, all inverse routines that invert invertible matrices", "why_tests_cant": "Tests compare finite differences on a handful of fixed trees at random states; trees are unboundedly many and the statement is an exact derivative, not an approximation", "anchors": ["aslam_optimizer/aslam_backend_expressions/src/RotationExpressionNode.cpp", "aslam_optimizer/aslam_backend_expressions/src/EuclideanExpressionNode.cpp", "aslam_optimizer/aslam_backend_expressions/src/TransformationExpressionNode.cpp", "aslam_optimizer/aslam_backend_expressions/src/HomogeneousExpressionNode.cpp", "aslam_optimizer/aslam_backend_expressions/src/ScalarExpressionNode.cpp", "aslam_optimizer/aslam_backend_expressions/src/TransformationBasic.cpp", "aslam_optimizer/aslam_backend_expressions/src/MatrixBasic.cpp", "aslam_optimizer/aslam_backend_expressions/src/EuclideanDirection.cpp", "aslam_optimizer/aslam_backend_expressions/src/ErrorTermTransformation.cpp"]}
{"id": "C71", "title": "Design variables undo one change, report their value, and measure differences consistently with steps", "statement": "For vectors, Euclidean points, scalars, homogeneous points and rotations (plain and mapped): after any sequence of update, revertUpdate and setParameters calls of the right sizes the value reported by getParameters is the one the sequence determines, where a revert takes back the last update or assignment and repeated reverts change nothing more; steps that are too short and parameters of another shape are undefined behaviour. A rotation's matrix is always the matrix of its quaternion along such histories, both stay proper rotations when assigned quaternions are unit and steps are zero or at least 2^-13, and a step multiplies the matrix by the step's rotation. minimalDifference of a vector, point or scalar is exactly the step from the reference to the value and throws for a reference of another shape. For unit quaternions it is undefined exactly for opposite quaternions, zero at the reference, and otherwise the step from the reference to the value whenever the relative rotation has a vector part of at least 2^-13 or is obtuse; a step taken from the reference is reported back. The Jacobian of minimalDifference is its derivative with respect to a step in every direction when the vector part exceeds 2^-13 (for a rotation not at a relative half turn), and at the reference for a rotation, where it is the identity. Known violations: `set` on a rotation (and writing the storage of a mapped one) leaves the rotation matrix stale; setParameters does not normalise a homogeneous point; the mapped classes measure the difference from the value before the last change, so right after a step from the reference it is zero whatever the step; the Jacobian of a homogeneous point and of the mapped quaternion classes at the reference is 0/0; a generic vector reverted before its first step reads uninitialised memory, and its setParameters is not undone by a revert.", "quantifier": "all variable kinds, vector dimensions, initial values, histories of updates, reverts and assignments of any length, unit reference values, step directions", "why_tests_cant": "Optimizers apply arbitrary sequences of steps and roll some back; a stale cache or a wrong previous value only shows in particular orders, and difference and Jacobian must agree with the update rule at every pair of rotations.", "anchors": ["aslam_optimizer/aslam_backend_expressions/src/RotationQuaternion.cpp: updateImplementation, revertUpdateImplementation, setParametersImplementation, minimalDifferenceImplementation, minimalDifferenceAndJacobianImplementation", "aslam_optimizer/aslam_backend_expressions/src/MappedRotationQuaternion.cpp", "aslam_optimizer/aslam_backend_expressions/src/HomogeneousPoint.cpp", "aslam_optimizer/aslam_backend_expressions/src/MappedHomogeneousPoint.cpp", "aslam_optimizer/aslam_backend_expressions/src/EuclideanPoint.cpp", "aslam_optimizer/aslam_backend_expressions/src/MappedEuclideanPoint.cpp", "aslam_optimizer/aslam_backend_expressions/src/Scalar.cpp", "aslam_optimizer/aslam_backend_expressions/include/aslam_backend_expressions/RotationQuaternion.hpp: set", "aslam_optimizer/aslam_backend_expressions/include/aslam_backend_expressions/DesignVariableGenericVector.hpp", "aslam_optimizer/aslam_backend_expressions/include/aslam_backend_expressions/implementation/DesignVariableVector.hpp", "aslam_optimizer/aslam_backend_expressions/include/aslam_backend_expressions/implementation/DesignVariableMappedVector.hpp", "aslam_optimizer/aslam_backend_expressions/include/aslam_backend_expressions/implementation/GenericScalar.hpp"]}
{"id": "C72", "title": "Spline design variables stay attached to their coefficients and spline expressions have the right Jacobians", "statement": "After any sequence of updates, reverts, assignments, added segments and removed segments there is exactly one design variable per coefficient vector of the curve, the variable with index i has the value of coefficient i, indices out of range throw and different indices are different objects. An update or assignment changes exactly its own coefficient and a revert right after it restores the curve. Adding a segment keeps every variable at its index and adds a new object; removing one destroys the first variable and moves the others down. An expression can be made at every time of the curve and names one variable per coefficient of the segment. For every smooth motion of the variables the Jacobians reported by the transformation, orientation, position, velocity, acceleration, body angular velocity and acceleration, Euclidean and vector expressions (any dimension and derivative order), applied to the rates of their variables, give the rate of the value; with a chain rule, the given matrix times it. Changing values never changes which variables an expression uses, nor does adding a segment for times before the old end, nor removing one for the times of the remaining curve. Known violations: an expression made at the last time of the curve lacks the variable added later although it then depends on it; after removing a segment an expression that used the first variable refers to a destroyed object; a revert after a segment was added or removed undoes nothing; minimalDifference measures from the value before the last change; the Jacobian of the body-frame acceleration is that of the world-frame acceleration, with the wrong sign for a body turned by half a turn.", "quantifier": "all curves, dimensions, orders, times, rotation parametrisations, motions of the variables, histories of value changes and segment changes of any length", "why_tests_cant": "The variables point into a coefficient matrix that is reallocated whenever the curve grows or shrinks; whether every pointer, index and cached previous value is still right depends on the whole history, and Jacobian blocks must match at every time and state.", "anchors": ["aslam_nonparametric_estimation/aslam_splines/include/aslam_splines/implementation/BSplineDesignVariable.hpp: addSegment, removeSegment, getDesignVariables, designVariable", "aslam_nonparametric_estimation/aslam_splines/src/BSplinePoseDesignVariable.cpp", "aslam_nonparametric_estimation/aslam_splines/src/EuclideanBSplineDesignVariable.cpp", "aslam_nonparametric_estimation/aslam_splines/src/BSplineExpressions.cpp: evaluateJacobiansImplementation of every node", "aslam_nonparametric_estimation/aslam_splines/include/aslam_splines/implementation/BSplineExpressions.hpp", "aslam_optimizer/aslam_backend_expressions/include/aslam_backend_expressions/implementation/DesignVariableMappedVector.hpp: updateMap, minimalDifferenceImplementation"]}
{"id": "C73", "title": "The transformation of a pose curve at an estimated time depends on the time and the right variables", "statement": "An expression for the transformation at an estimated time can be made at every time of the curve with non-negative margins. At every time within the margins and before the end of the curve it has the value of the curve, and it names, without repetition, every variable that value depends on. For every smooth motion of the variables together with the time, the Jacobian blocks under a chain rule applied to the rates of the variables, plus the Jacobian of the time applied to the rate of the time, give the chain-rule matrix times the perturbation of the transformation, wherever the curve has a time derivative. Known violations: without a chain rule this only holds if the margin reaches the first segment, otherwise a matrix block at a negative column is read at every time; at the end of the curve the expression always throws although the curve has a value there; after a segment is removed the expression keeps the old indices and lacks a variable its value depends on.", "quantifier": "all curves, margins, times, rotation parametrisations, chain-rule matrices and joint motions of coefficients and time", "why_tests_cant": "The segment reached while the time is estimated varies; whether block positions, the variable list and the time column are right must hold for each segment, margin and state, and the bug in the plain Jacobian only shows away from the first segment.", "anchors": ["aslam_nonparametric_estimation/aslam_splines/src/BSplineExpressions.cpp: TransformationTimeOffsetExpressionNode", "aslam_nonparametric_estimation/aslam_splines/src/BSplinePoseDesignVariable.cpp: transformationAtTime", "aslam_nonparametric_estimation/aslam_splines/include/aslam_splines/BSplineExpressions.hpp"]}
{"id": "C74", "title": "Marginalization keeps exactly what the removed variables knew about the others", "statement": "Marginalizing the first design variables of a list out of a set of error terms succeeds when variables and terms are distinct, the terms only involve variables of the list, there are at least as many error rows as columns, some variable remains and no covariance is asked for; repeated variables or terms, too few rows and an empty remainder are rejected. After success every block index, column and row offset is as before. When the removed variables are determined by the terms and the remaining ones have unit scaling, the cost of the resulting prior at any displacement of the remaining variables is, up to one non-negative constant, the minimum of the linearised cost over the removed variables, and the minimum is attained. If as many rows as columns and a determined system, the covariance returned is symmetric and the inverse of the normal matrix; the variables named with it are the shortest prefix that covers the rows asked for. The Jacobians of the prior applied to the rates of its active variables give the derivative of its error along every smooth motion. Known violations: asking for a covariance with more rows than columns reads a non-square matrix as square (undefined behaviour); a throw after renumbering leaves the indices modified; a variable of the terms that is not in the list overwrites the columns of another one; scaling of a remaining variable distorts the prior; an undetermined removed variable can take all information on the remaining ones with it.", "quantifier": "all lists of design variables and error terms of any dimensions, all numbers of removed variables, all earlier indices, all correct QR decompositions, all displacements and smooth motions", "why_tests_cant": "The information kept is a statement on the minimum over every displacement of the removed variables, for every shape of the problem; tests compare one prior with one hand-made matrix.", "anchors": ["aslam_optimizer/aslam_backend/src/Marginalizer.cpp: marginalize", "aslam_optimizer/aslam_backend/src/MarginalizationPriorErrorTerm.cpp: MarginalizationPriorErrorTerm", "aslam_optimizer/aslam_backend/src/DenseQrLinearSystemSolver.cpp: buildSystem", "aslam_optimizer/aslam_backend/src/LinearSystemSolver.cpp: evaluateError"]}
{"id": "C75", "title": "Tag codes are read, matched and corrected within the family's distance", "statement": "Reading the cells of a tag of at most 8 by 8 cells gives the word whose picture they are, and no word exactly when some cell lies outside the image. The Hamming distance of two 64 bit words is the number of differing bits. rotate90 turns the picture by a quarter; four times give it back. Decoding reports, over all codes and all four orientations, the nearest code, its distance and its orientation, the first one when several are equally near, and is good exactly when the distance is within the recovery setting; for an empty family it reports id -1. In a family whose different codes differ in at least D cells under every rotation, a code seen in any orientation with fewer than D/2 wrong cells is reported with its id, and, if no code comes within D cells of its own rotations, with its orientation and the exact number of wrong cells; a good detection under a recovery setting below D/2 names the only code within it. The shipped families 16h5, 25h7, 25h9, 36h11 and the two 'other' tables keep the minimum distance they declare, and the default recovery setting is below half of it. Known violations: the 'other' tables contain codes equal to their own half turn, so a perfect view is reported in the wrong orientation; pictures of more than 8 rows shift by more than the word has bits (undefined behaviour).", "quantifier": "all observed words and cell samples, all families of codes, all error patterns and orientations, all recovery settings", "why_tests_cant": "There are 2^36 words and every error pattern in every orientation must decode right; the tables' claim is about every pair of codes.", "anchors": ["aslam_offline_calibration/aslam_apriltag2/src/TagFamily.cc: decode, rotate90, popCount, hammingDistance", "aslam_offline_calibration/aslam_apriltag2/include/aslam_apriltag2/TagFamily.h", "aslam_offline_calibration/aslam_apriltag2/include/aslam_apriltag2/Tag36h11.h", "aslam_offline_calibration/aslam_apriltag2/src/TagDetector.cc: extractTags"]}
{"id": "C76", "title": "A detected tag reports its corners in the order of the tag", "statement": "A quadrilateral with distinct corners, for which the fitted homography takes the corners of a tag to those of the quadrilateral, never leads to undefined behaviour, and a detection made from it reports the four corners of the quadrilateral in the same cyclic order, started so that the reported homography takes the corners of the tag (-1,-1), (1,-1), (1,1), (-1,1) to the reported corners. Reading the cells from another start corner gives the word of the turned picture. For a family whose codes keep a minimum distance D from each other and from their own turned versions, a tag with all cells inside the image, fewer than D/2 wrong cells and no more than the recovery limit is detected with its number, and the number of wrong cells, the centre and the four corners in order are the same whichever corner the quadrilateral starts with.", "quantifier": "all families up to 8 by 8 cells, borders, images, quadrilaterals of distinct corners, start corners, numbers of wrong cells below half the distance", "why_tests_cant": "Recorded images contain a few quadrilaterals whose start corner is decided by edge angles; tests cannot cover every image, family, orientation and error pattern.", "anchors": ["aslam_offline_calibration/aslam_apriltag2/src/TagDetector.cc: TagDetector::extractTags (step eight)", "aslam_offline_calibration/aslam_apriltag2/src/Quad.cc: Quad::interpolate, Quad::interpolate01", "aslam_offline_calibration/aslam_apriltag2/src/TagDetection.cc: TagDetection::interpolate"]}
{"id": "C77", "title": "One detection is kept per tag", "statement": "Removing duplicates invents no detection, and for each detection some kept one has the same number and is no worse (fewer wrong cells, or as many and no smaller perimeter). When overlapping is an equivalence among the detections, no two kept ones have the same number and overlap, and each detection has a kept one that overlaps it, has its number and is no worse than any detection overlapping it. Without that, the same detection can be returned twice: two detections of one number that do not overlap are both replaced by a better one that overlaps both.", "quantifier": "all lists of detections", "why_tests_cant": "Whether two detections overlap a third but not each other depends on the image; tests see a few lists, the claim is about all of them in any order.", "anchors": ["aslam_offline_calibration/aslam_apriltag2/src/TagDetector.cc: TagDetector::extractTags (step nine)", "aslam_offline_calibration/aslam_apriltag2/src/TagDetection.cc: TagDetection::overlapsTooMuch"]}
{"id": "C78", "title": "Disjoint sets partition the ids by the connections made", "statement": "Starting from n separate ids, after any sequence of connectNodes, getRepresentative and getSetSize calls with ids in range every call terminates without undefined behaviour; two ids have the same representative exactly when a chain of connectNodes calls links them; a representative is itself linked to the id; the size of a set is the number of ids linked to the given one and never exceeds n. What connectNodes returns is the representative of both ids from then on, and asking for representatives or sizes changes no representative. An id outside the structure is not checked and is undefined behaviour.", "quantifier": "all numbers of ids, all finite sequences of calls", "why_tests_cant": "Path compression and union by size interact over histories of calls; tests run a few histories, while clustering an image makes hundreds of thousands of connections in an order decided by the image.", "anchors": ["aslam_offline_calibration/aslam_apriltag2/src/UnionFindSimple.cc: getRepresentative, connectNodes, init", "aslam_offline_calibration/aslam_apriltag2/include/aslam_apriltag2/UnionFindSimple.h: UnionFindSimple, getSetSize"]}
{"id": "C79", "title": "The lookup grid finds every object in range", "statement": "A grid made over an area with positive cell size has at least one cell and covers the area. After any sequence of additions, iterating over the objects around (x, y) with a range ends without undefined behaviour and returns, each as often as it was added and in some order, every object added at a covered position whose distance from (x, y) is at most the range in both directions, and only objects added at covered positions; covered are the w by h cells and the positions less than one cell to the left or below, which are rounded into the first column or row. If the queried range lies in the grid, an object returned is not further than the range plus two cells, or plus one cell if object and range lie right of and above the origin of the grid. Additions elsewhere are ignored. Adding and looking up are defined as long as the cell numbers fit an int. A grid made over a reversed area can have no cells, and looking something up in it is undefined behaviour.", "quantifier": "all grids, all sequences of additions, all positions and ranges", "why_tests_cant": "Rounding towards zero, clamping and the resumable double loop of the iterator have corner cases at every cell boundary and for every pattern of empty cells.", "anchors": ["aslam_offline_calibration/aslam_apriltag2/include/aslam_apriltag2/Gridder.h: Gridder, add, find, Iterator::hasNext, Iterator::next, findNext, iteratorInit"]}
{"id": "C80", "title": "Line segments are chained into quadrilaterals soundly, completely and without duplicates", "statement": "For any set of line segments the tag detector builds, the search reports only loops of four segments, each turning clockwise into the next near its end, whose lines cross in corners that are passed round clockwise exactly once, with all sides and diagonals at least 6 pixels and sides within a factor of 32; it reports every such loop whose segments start in the picture within half a length of the end of the one before; and it reports no loop twice, whichever of its segments it starts from. The corners are exactly the crossings of the lines and the perimeter the sum of the lengths. Segments built from a fitted line keep its end points, their angle is opposite to their course, and at least half of the gradient magnitude lies on one fixed side. Exception: a corner with first coordinate exactly -1 is taken for parallel lines, so that a quadrilateral with such a corner is lost.", "quantifier": "all numbers of segments, all positions and angles, all picture sizes up to 10^9", "why_tests_cant": "Loops can share segments in any way; that none is lost, doubled or wrongly accepted depends on the geometry of every set of segments.", "anchors": ["aslam_offline_calibration/aslam_apriltag2/src/Quad.cc: Quad::search", "aslam_offline_calibration/aslam_apriltag2/src/TagDetector.cc: extractTags steps five to seven", "aslam_offline_calibration/aslam_apriltag2/src/GLine2D.cc: intersectionWith", "aslam_offline_calibration/aslam_apriltag2/include/aslam_apriltag2/MathUtil.h: mod2pi"]}
{"id": "C81", "title": "Reprojection errors report the exact derivatives of the point, the projection and the distortion", "statement": "For every supported camera (pinhole and omnidirectional with each distortion, extended unified, double sphere) and every expression of the observed point, a reprojection error is the measured minus the predicted keypoint, its returned value the square in the given inverse covariance, and wherever the camera forms a smooth image of the point (not at infinity) the Jacobians handed to the optimizer are the derivatives of that error along every motion of the design variables of the point, of the projection parameters and of the distortion parameters; only active camera variables get one, with as many columns as parameters; the simple error without camera variables agrees. The returned value moves with twice error times weight times Jacobian. A camera parameter block can be updated, set and reverted: an update adds, and any number of reverts brings back the values before the last change. Exceptions: a point outside the field of view of an omnidirectional camera gives an error computed from a never written keypoint; a point on the axis of an equidistant camera has a finite error but no finite Jacobian; reverting before the first update is undefined; the difference to a linearisation point is never written.", "quantifier": "all cameras, parameters, points, expressions, environments and directions; all histories of updates, sets and reverts", "why_tests_cant": "The derivative must be right for every parameter value and viewing direction of every camera and through every expression; finite differences sample single points.", "anchors": ["aslam_cv/aslam_cv_error_terms/include/aslam_cv_error_terms/implementation/ReprojectionError.hpp: evaluateErrorImplementation, evaluateJacobiansImplementation", "aslam_cv/aslam_cv_error_terms/include/aslam_cv_error_terms/implementation/SimpleReprojectionError.hpp", "aslam_cv/aslam_cv_backend/include/aslam_cv_backend/implementation/CameraDesignVariable.hpp: evaluateJacobians", "aslam_optimizer/aslam_backend/include/aslam_backend/backend/implementation/DesignVariableAdapter.hpp"]}
{"id": "C82", "title": "Rolling shutter times follow the row, and the adapted covariance is a motion's first order effect only for an aligned camera", "statement": "The time of a keypoint is the image stamp plus the row times the line delay cut to a whole nanosecond towards the stamp (the stamp itself with a global shutter), and the Jacobian reported for an estimated line delay is the change of that time up to two nanoseconds; a time made while the shutter was not estimated keeps the old delay for ever. The error with adapted covariance weighs a residual that is the image of a measurement error under the covariance map exactly as that error was weighed. For every camera, pose curve and regular point the map is the identity plus, in its second column, the line delay times the image Jacobian applied to the velocity of the observed point expressed in the axes of the target; it equals the derivative of the residual with respect to the measured keypoint when the camera's axes are those of the target. Exceptions: for a turned camera it is not that derivative (the sign can be wrong); when the image runs with the row no finite weight exists; without a curve the covariance of the keypoint is ignored.", "quantifier": "all stamps, delays, rows, cameras, pose curves of every order and rotation parametrisation, times, points and covariances", "why_tests_cant": "Rounding must be right at every stamp and row, and the sign and frame of the velocity show only for turned cameras on moving curves.", "anchors": ["aslam_cv/aslam_cv_error_terms/include/aslam_cv_error_terms/implementation/CovarianceReprojectionError.hpp: covarianceMap, evaluateErrorImplementation, observationTime", "aslam_cv/aslam_cameras/include/aslam_cameras/cameras/RollingShutter.hpp: temporalOffset", "aslam_cv/aslam_cv_backend/include/aslam_cv_backend/implementation/ScalarExpressionNodeKeypointTime.hpp", "aslam_cv/aslam_time/include/aslam_time/implementation/Duration.hpp: fromSec"]}
{"id": "C83", "title": "A masked camera reports a point visible exactly when the projection sees it and the mask is open there", "statement": "For every supported camera, point and mask that (scaled) covers the image, projecting a Euclidean or homogeneous point (with or without Jacobian) reports success exactly if the projection sees the point and the mask pixel under the keypoint is not black, and the mask is never read outside. Inside the image a keypoint is valid exactly if the mask is not black there and can be lifted if moreover the projection can; a pinhole camera lifts nothing outside; a mask given as a matrix of bytes comes back as it is. Exceptions: asking for the validity of a keypoint outside the image, or lifting one with an omnidirectional camera, reads the mask outside; the virtual visibility tests ignore the mask; with numerical Jacobians every homogeneous point is reported visible; masks that differ in their scale compare equal; a matrix entry of 256 is black.", "quantifier": "all cameras, parameters, points, keypoints, masks and scales", "why_tests_cant": "The index computed from a keypoint must stay inside the mask for every point, parameter and scale; out of range reads often go unnoticed in a test.", "anchors": ["aslam_cv/aslam_cameras/include/aslam_cameras/cameras/implementation/CameraGeometry.hpp: euclideanToKeypoint, homogeneousToKeypoint, keypointToEuclidean, isValid, vsIsEuclideanVisible, homogeneousToKeypointFiniteDifference", "aslam_cv/aslam_cameras/include/aslam_cameras/cameras/ImageMask.hpp: isValid", "aslam_cv/aslam_cameras/src/ImageMask.cpp: setMaskFromMatrix, getMaskAsMatrix, isBinaryEqual"]}
{"id": "C84", "title": "The stacked camera parameters, their update and their Jacobian belong together", "statement": "For every camera and every choice of estimated blocks (projection, distortion, shutter): the number of dimensions is the length of the parameter vector; setting a vector makes it the parameters, reading and setting again changes nothing, an update adds its numbers; the parameters that are not estimated, the camera model and the resolution never change. For a regular homogeneous point the stacked Jacobian has one column per estimated parameter: first the derivatives with respect to the projection, then those with respect to the distortion, then zeros for the shutter; the Jacobian of the time offset of a rolling shutter is the row in the column of the line delay. Exceptions: the version for Euclidean points writes outside its matrix whenever projection and distortion are both estimated (it agrees otherwise); the time offset Jacobian of a global shutter resizes a block; an update that the distortion refuses by an exception leaves the projection updated and the refused value in place.", "quantifier": "all cameras, shutters, parameter values, flags, updates and regular points", "why_tests_cant": "Offsets must be right for every combination of blocks of every camera model.", "anchors": ["aslam_cv/aslam_cameras/include/aslam_cameras/cameras/implementation/CameraGeometry.hpp: update, minimalDimensions, getParameters, setParameters, euclideanToKeypointIntrinsicsJacobian, homogeneousToKeypointIntrinsicsJacobian, temporalOffsetIntrinsicsJacobian", "aslam_cv/aslam_cameras/src/FovDistortion.cpp: update, setParameters"]}
{"id": "C85", "title": "Inertial error terms are zero for exactly the measurements a mounted sensor would make; one lever-arm class and the curve's angular acceleration are not", "statement": "For every motion of a rigid body and every mounting of an IMU, the accelerometer terms of the plain, the scaled and misaligned, and the size-effect model (and of the C++ class for a sensor at the body) equal the specific force at the sensor's own point (one point per axis for the size effect) in the sensor's own axes, multiplied by the sensor matrix, plus bias minus measurement, and the gyroscope terms do the same for the angular velocity of the sensor's axes with its sensitivity to acceleration, provided the angular acceleration used is the derivative of the angular velocity or the lever arm is zero. On every pose curve, between knots, the orientation, acceleration and angular velocity used are those of such a motion. After any history of updates that ends in an evaluation the Jacobians are the derivative of the error for all design variables, which are all registered. Each measurement strictly inside the interval of the curve gives one term, in order, whose cost is the squared error over variance times scale. Exceptions: the C++ class with one lever arm per axis is wrong for a turned IMU; the curve's own angular acceleration with a lever arm gives a perfect measurement an error; Jacobians asked for without evaluating the error after an update are those of the old state.", "quantifier": "all rigid motions, pose curves over the five rotation parametrisations, expressions, mountings, sensor matrices, biases, measurements, histories and data sets", "why_tests_cant": "A wrong frame, sign or lever arm vanishes for special motions and mountings; the claim relates the terms to second derivatives along every motion.", "anchors": ["aslam_offline_calibration/kalibr/src/EuclideanError.cpp: EuclideanError", "aslam_offline_calibration/kalibr/src/AccelerometerError.cpp: AccelerometerError, AccelerometerErrorEccentric", "aslam_offline_calibration/kalibr/src/GyroscopeError.cpp: GyroscopeError, GyroscopeNoBiasError, GyroscopeErrorEccentric", "aslam_offline_calibration/kalibr/python/kalibr_imu_camera_calibration/IccSensors.py: IccImu, IccScaledMisalignedImu, IccScaledMisalignedSizeEffectImu (addAccelerometerErrorTerms, addGyroscopeErrorTerms)"]}
{"id": "C86", "title": "Numerical Jacobians approximate the true ones to second (fourth) order and leave the variables alone; the camera's parameter columns are taken at drifted parameters", "statement": "For every function with bounded third derivative M, the numerical Jacobian has one column per input and every entry within M h^2/6 of the partial derivative, h being the step times the larger of one and the input's size. For every error term with distinct design variables, the finite-difference Jacobians are one block per variable in order, within M 10^-12/6 of the derivative along that variable's own update, and all variables have their values again; the numerical check of a term's Jacobians passes when they are right and M tol <= 6, and when it passes every variable has a Jacobian within tol + M tol^2/6 of the derivative. The camera library's five-point estimate of parameter Jacobians is within M step^4/18 of the derivative, but at parameters in which the columns treated before are lower by two steps: for an omnidirectional camera the focal length column is wrong by more than its step. Exceptions: afterwards the error stored in a term is that of the last perturbation, and a design variable given twice counts one and a half times.", "quantifier": "all functions, inputs, steps, error terms, lists of design variables, tolerances and Jacobians", "why_tests_cant": "Error bounds over all smooth functions and all inputs are analytic statements; tests use these very differences as their reference.", "anchors": ["Schweizer-Messer/sm_eigen/include/sm_eigen/NumericalDiff.hpp: NumericalDiff::estimateJacobian", "aslam_optimizer/aslam_backend/src/ErrorTerm.cpp: ErrorTerm::evaluateJacobiansFiniteDifference", "aslam_optimizer/aslam_backend/include/aslam_backend/backend/implementation/ErrorTerm.hpp: ErrorTermFs::checkJacobiansNumerical", "aslam_optimizer/aslam_backend/src/ErrorTermDs.cpp: ErrorTermDs::checkJacobiansNumerical", "aslam_cv/aslam_cameras/include/aslam_cameras/cameras/FiniteDifferences.hpp: ASLAM_CAMERAS_ESTIMATE_JACOBIAN, ASLAM_CAMERAS_ESTIMATE_INTRINSIC_JACOBIAN, ASLAM_CAMERAS_ESTIMATE_DISTORTION_JACOBIAN"]}
{"id": "C87", "title": "A motion error is the integral of the weighted square of a derivative, and adds its exact expansion to the optimizer's system", "statement": "For every curve, symmetric weight and derivative order below 2^31, a motion error can be made, and its value for any coefficients is the integral over the whole curve of the weighted square of that derivative (of the highest derivative the curve has, if a higher one was asked for; of the acceleration if none was named); a weight asymmetric by more than 1e-14 is rejected. Its right-hand side is minus half the gradient. When the active coefficient variables stand in the system in the order of the curve, what is added to any Hessian and right-hand side is the exact second order expansion of the error for every step, with any subset of variables inactive. Exceptions: for variables in another order the blocks below the diagonal are lost; the scaling of the variables is ignored; and after a segment has been removed from the curve the error reads past the coefficients.", "quantifier": "all curves (orders, knots, dimensions, coefficients), weights, derivative orders, layouts, systems and steps", "why_tests_cant": "Equality with an integral and exactness of an expansion for all curves, steps and variable layouts are analytic statements; tests compare a few numbers.", "anchors": ["aslam_nonparametric_estimation/aslam_splines/include/aslam_splines/implementation/BSplineMotionError.hpp: initialize, evaluateErrorImplementation, rhs, buildHessianImplementation", "aslam_nonparametric_estimation/aslam_bsplines/src/BSpline.cpp: curveQuadraticIntegralSparse"]}
{"id": "C88", "title": "Segment-wise motion error terms measure the motion integral when they are made, and no longer afterwards", "statement": "Given a correct singular value decomposition, the matrix returned for a segment is a square root of the segment's motion integral for every curve, derivative order and symmetric weight without negative directions: the squared length of its product with any coefficients is the integral of the weighted squared derivative over that segment. Adding motion error terms for new design variables of a curve makes one term per segment, and their squared errors add up to the integral over the whole curve. After any history of updates, reverts and assignments the terms add up to the integral for a different curve: the one whose coefficients are the values before each variable's last change minus twice the values at the time the terms were made. So the terms do not follow the curve: after doubling the slope of a line they are unchanged, and after a further update by zero they vanish.", "quantifier": "all curves, weights, derivative orders, decompositions and histories of the variables", "why_tests_cant": "The square root property is for all weights and knots; the dependence on the history of the variables needs every sequence of updates, and the value at creation, which a test would look at, is right.", "anchors": ["aslam_nonparametric_estimation/aslam_splines/include/aslam_splines/implementation/BSplineMotionErrorFactory.hpp: addMotionErrorTerms", "aslam_nonparametric_estimation/aslam_bsplines/src/BSpline.cpp: segmentIntegral, segmentCoefficientVector, segmentVvCoefficientVectorIndices", "aslam_optimizer/aslam_backend/src/MarginalizationPriorErrorTerm.cpp: evaluateErrorImplementation, getDifferenceSinceMarginalization"]}
{"id": "C89", "title": "The first guess of a pinhole camera's intrinsics", "statement": "Initializing the intrinsics from target observations puts the principal point in the middle of the first image and sets both focal lengths to the median, over all pairs of rows with indices below the column count in images that show the whole target, of the distance between the two points common to the circles fitted to the rows, divided by pi; without any such pair it is the number entered by hand or 557. The fitted circle has as centre the one point whose squared distances to the corners differ least and as radius the mean distance; it is the exact circle of corners lying on one. Two circles with different centres give all their common points, or one point closer than 1e-10 to all of them. This holds if, for every target seen as a whole, there are no more columns than rows, no row is straight and no two rows share a circle, and then the focal length is positive. Otherwise: a fully seen target with more columns than rows makes the code read out of bounds; if all rows are straight, as they are without distortion, the focal length is not a number; and two rows on the same circle give a guess that is not a number. No observations, a missing target or a hand-entered number that is not positive raise an exception.", "quantifier": "all lists of observations, target sizes, corner positions and sorting functions", "why_tests_cant": "The optimality of the fit, the completeness of the intersection and the median are for all corner positions; the out-of-bounds reads depend only on the target's shape and are silent, and the tests use square targets and distorted images.", "anchors": ["aslam_cv/aslam_cameras/include/aslam_cameras/cameras/implementation/PinholeProjection.hpp: PinholeHelpers::fitCircle, intersectCircles, medianOfVectorElements, initializeIntrinsics"]}
{"id": "C90", "title": "The first guess of an omnidirectional camera's intrinsics", "statement": "Initializing the intrinsics of an omnidirectional camera sets xi to one, the principal point to the middle of the first image and both focal lengths to the estimate with the least mean reprojection error over all rows of all observations, and returns true, provided some mean error is below the largest double. A row gives an estimate only if more than four of its corners are seen, the line is not too close to radial, at least four corners are seen less than 80 degrees off the axis and more than four corners of the target are reprojected into the image. If the corners of a row are the exact images of points in a plane through the camera and three of them differ, the estimate is the true focal length, or the row is skipped if the plane's normal is more than 0.95 off the axis; so with exact corners the function returns the true focal length whenever it returns true, whatever the poses found. The pose of the target is estimated from the target points and the coordinates an ideal pinhole camera would have measured. If no row gives an estimate the function returns false and leaves the camera with focal lengths of zero. No observations or one without a target raise an exception.", "quantifier": "all lists of observations, target sizes, corner positions, poses, distortions and least squares and pose solvers", "why_tests_cant": "Exactness is for all planes and focal lengths, and the choice is optimal over all rows of all images; tests run one simulated camera.", "anchors": ["aslam_cv/aslam_cameras/include/aslam_cameras/cameras/implementation/OmniProjection.hpp: initializeIntrinsics, computeReprojectionError, estimateTransformation", "aslam_cv/aslam_cameras/src/GridCalibrationTargetObservation.cpp: getCornersImageFrame, getCornersTargetFrame"]}
{"id": "C91", "title": "The solver with marginal analysis of incremental calibration", "statement": "Given a sparse system whose columns are split into a left and a right block, the linear solver of incremental calibration returns a step that is least squares for the column-scaled system except that one direction of the residuals (more if the left block is rank deficient), of unit length and at right angles to the left columns, is ignored; the right part has no component along the null space that getNullSpace reports, whose dimension is the reported deficiency, and the step is the best among all such. Consequently the step is in general not the least squares solution and does not vanish where the gradient is zero, although it solves the system exactly when it has an exact solution and nothing is deficient. With no deficiency the reported covariance is the inverse of a matrix that gives, for every change of the right variables, the least increase of the squared residuals, again without the ignored direction. The rank is the number of singular values above the tolerance, at least one. A step always comes out when there are more rows than left columns; it has entries that are not finite exactly when the largest singular value is zero, in particular always when there is one row more than left columns. The split outside the columns, a right side of another length and too few rows are rejected with an exception. The marginal analysis does the same without scaling, and keeps a rank found before for a left block of equal size.", "quantifier": "all matrices, right sides, splits, options, histories of the solver, and all QR and singular value decompositions", "why_tests_cant": "Optimality compares with every other step, for every matrix and every decomposition; tests solve a few random systems.", "anchors": ["aslam_incremental_calibration/aslam_incremental_calibration/src/core/LinearSolver.cpp: solve, analyzeMarginal, getNullSpace, getCovariance, clear", "aslam_incremental_calibration/aslam_incremental_calibration/src/algorithms/linalg.cpp: columnSubmatrix, rowSubmatrix, reduceLeftHandSide, reduceRightHandSide, solveSVD, solveQR, estimateNumericalRank, rankTol, qrTol, columnScalingMatrix"]}
{"id": "C92", "title": "Smoothing and gradients of the tag detector", "statement": "The detector's smoothing filter has an odd length of at least three, its weights are positive, symmetric, decrease from the middle and add up to one (three weights for the width used). Smoothing an image at least as large as the filters never reads or writes outside it and keeps its size; columns are convolved with the image continued by its end pixels. Rows are convolved the same way only in the first row and away from the left and right border; nearer to it, from the third row on, the outermost pixel replaces the whole window, so that the second column becomes a copy of the first, and in the second row the window reaches into the end of the first row. No pixel leaves the range of values of the image. Gradients are central differences in polar form, zero on the outermost pixels; away from the borders a ramp keeps exactly its slope and direction.", "quantifier": "all image sizes and pixel values, all filters and filter widths, all pixels", "why_tests_cant": "The index arithmetic must be right for every position of every row and size; the detector's tests only look for tags in the middle of images.", "anchors": ["aslam_offline_calibration/aslam_apriltag2/src/Gaussian.cc: makeGaussianFilter, convolveSymmetricCentered", "aslam_offline_calibration/aslam_apriltag2/src/FloatImage.cc: filterFactoredCentered", "aslam_offline_calibration/aslam_apriltag2/src/TagDetector.cc: extractTags (steps one and two)"]}
{"id": "C93", "title": "Line segments fitted to pixel clusters", "statement": "For weighted pixels of positive total weight, the line the tag detector fits has the least weighted sum of squared perpendicular distances of all lines in the plane. The segment lies on that line; both its ends are the feet of the perpendiculars of two of the pixels, and the feet of all pixels lie between them. Pixels of positive weight on one common line (vertical lines included) are fitted exactly: the ends are two of the pixels and all pixels lie on the segment. If the total weight is zero there is no segment.", "quantifier": "all lists of weighted pixels of positive total weight, all competing lines", "why_tests_cant": "Optimality compares with every other line, and degenerate clusters (vertical, single pixel, isotropic) need a case each; no test of the fit exists.", "anchors": ["aslam_offline_calibration/aslam_apriltag2/src/GLine2D.cc: lsqFitXYW, normalizeSlope, normalizeP, getLineCoordinate, getPointOfCoordinate", "aslam_offline_calibration/aslam_apriltag2/src/GLineSegment2D.cc: lsqFitXYW"]}
{"id": "C94", "title": "Grouping pixels of similar gradients", "statement": "Given the gradient directions and magnitudes of an image whose outermost pixels have no gradient, the tag detector links exactly the pairs of pixels among the eight neighbours that both have a magnitude of at least 0.004 and directions within thirty degrees (modulo full turns), at a cost proportional to the difference; links are used in stable order of cost and no access leaves the image. The bounds recorded for a group hold for all its pixels, directions modulo full turns, and those of the magnitudes are attained. A link joins two groups only if the union spans at most 100 and 1200 divided by its size more directions and magnitudes than either; conversely, with magnitudes up to 80, linked pixels end up in one group unless their groups have at least 16 pixels together. Pixels of one group are connected by links. The clusters handed on are exactly the groups of at least four pixels, each with all its pixels in order and their magnitudes as positive weights.", "quantifier": "all image sizes, all directions and magnitudes with an empty border, all pixels and links", "why_tests_cant": "The bounds are unions of intervals of periodic angles over a data dependent order of merges; tests only see whether a tag is found.", "anchors": ["aslam_offline_calibration/aslam_apriltag2/src/Edge.cc: edgeCost, calcEdges, mergeEdges", "aslam_offline_calibration/aslam_apriltag2/src/TagDetector.cc: extractTags (steps three and four)", "aslam_offline_calibration/aslam_apriltag2/src/UnionFindSimple.cc"]}
{"id": "C95", "title": "Reading the cells of a tag", "statement": "However observations are added to a gray model and predictions asked for, a prediction is made from exactly the observations so far: zero without any, their mean if there are fewer than six or the matrix cannot be inverted, and otherwise the only bilinear function with the least squared error. For every quadrilateral in a nonempty image whose cell centres can be converted to int, the tag detector fits one model to the ring of cells just outside the tag and one to its outermost ring, leaving out those outside the image, without access outside the image; the reading fails exactly if a data cell lies outside, and otherwise a cell is set in the word exactly if its pixel is brighter than half way between the two predictions. A tag whose outer ring and border show two bilinear (or constant) gray values and whose cells are seen nearer to their own colour is read as its word. Cells are not rounded to the nearest pixel: points up to one and a half pixels to the left or above the image are taken for its first column or row, while on the right and below only half a pixel is accepted.", "quantifier": "all histories of the model, all images, quadrilaterals, borders, tag sizes up to eight cells a side and gray values", "why_tests_cant": "Tests read a few rendered tags; what is read must be right for every perspective, lighting gradient and partly visible border.", "anchors": ["aslam_offline_calibration/aslam_apriltag2/src/GrayModel.cc: addObservation, interpolate, compute", "aslam_offline_calibration/aslam_apriltag2/src/TagDetector.cc: extractTags (step eight, lines 428-484)", "aslam_offline_calibration/aslam_apriltag2/src/Quad.cc: interpolate01"]}
{"id": "C96", "title": "Fixed-point numbers", "statement": "Sums, differences and negatives of fixed-point numbers are exact whenever the type can hold the result; otherwise those of 8 and 16 bit numbers wrap around and those of wider ones are undefined. Products and quotients that the type can hold are rounded toward zero for up to 32 bits; for 64 bits, computed in extended precision, they are within one and a half units of the last place, and exact if there is an exact result and the intermediate product has at most 64 bits. Division by zero is undefined. Conversion from a double rounds toward zero, and a number survives the way to a double and back. Converting a number that is not negative to another type rounds it down as long as nothing overflows; a negative number is not converted properly: with a divider of at least two it always becomes a 64-bit number that is not negative, even with the same divider.", "quantifier": "all four integer widths, all dividers the type can hold, all numbers", "why_tests_cant": "The tests multiply and divide a few small positive and negative numbers; none converts a negative number between types.", "anchors": ["aslam_optimizer/aslam_backend_expressions/include/aslam_backend_expressions/FixedPointNumber.hpp: FixedPointNumber"]}
{"id": "C97", "title": "Times as floating-point seconds", "statement": "With every operation rounded as doubles are: a number of seconds that fits becomes the nearest time up to a millionth of a nanosecond; a time of less than 2^21 seconds (24 days) survives the way to seconds and back, any other comes back within (seconds + 1) * 10^9 / 2^53 + 1, less than 478, nanoseconds, and neither direction exchanges two times. The time made from seconds need not be proper: 1 - 2^-40 becomes zero seconds and 10^9 nanoseconds, which compares as less than one second. Seconds become a duration within a nanosecond (and a millionth), rounded toward zero with parts of the same sign; the way to seconds and back changes a duration below 2^21 seconds by at most one nanosecond, and does change some (one second and two nanoseconds). Negative durations made from seconds are not in normal form: every negative whole number of seconds -k becomes 1-k seconds and -10^9 nanoseconds, unequal to and ordered after the duration of -k seconds. A duration times a factor is the exact product up to the rounding of doubles and the nanosecond cut off. Nanoseconds up to 2^62 come back from seconds within 1 + 5 n / 2^53.", "quantifier": "all real numbers of seconds in range, all times, durations and nanosecond counts", "why_tests_cant": "Rounding errors depend on the magnitude and on every bit of the fraction; tests convert a few round numbers.", "anchors": ["aslam_cv/aslam_time/include/aslam_time/Time.hpp: toSec, fromSec", "aslam_cv/aslam_time/include/aslam_time/Duration.hpp: toSec", "aslam_cv/aslam_time/include/aslam_time/implementation/Duration.hpp: fromSec", "Schweizer-Messer/sm_timing/src/NsecTimeUtilities.cpp: nsecToSec, secToNsec", "aslam_cv/aslam_time/include/aslam_time/implementation/Duration.hpp: operator*"]}
{"id": "C98", "title": "Rounding, comparison and quadratic helpers", "statement": "round, rint and lrint give the nearest integer, halves away from zero, whenever it fits an int; beyond, rint of a double is undefined and of a float wraps, and lrint of a double is undefined although its result type could hold the value. With a positive epsilon exactly one of approximately equal, definitely greater and definitely less holds, equality being a difference of at most epsilon times the larger magnitude, symmetric in the arguments; other epsilons are rejected. The quadratic solver (leading coefficient not zero) throws exactly if there is no real root and otherwise returns exactly the roots, with their sum and product, except when both other coefficients are zero, where one result is zero divided by zero. The sign function is -1, 0 or 1 as the number is negative, zero or positive.", "quantifier": "all numbers, epsilons and coefficients", "why_tests_cant": "The corner cases are ties, range ends, vanishing coefficients and equality at the tolerance; the tests contain none of them.", "anchors": ["Schweizer-Messer/sm_common/include/sm_common/round.hpp", "Schweizer-Messer/sm_common/include/sm_common/numerical_comparisons.hpp", "Schweizer-Messer/sm_common/include/sm_common/maths.hpp: solveQuadratic, sgn"]}
{"id": "C99", "title": "Aligning two sets of points", "statement": "For two sets of equally many points, at least one, the singular value method returns the 4x4 matrix of a proper rigid motion (rotation of determinant +1, bottom row 0 0 0 1) from the second set to the first whose sum of squared distances no proper rigid motion beats, including when the unconstrained optimum would be a reflection; if the sets are exactly related by a rigid motion and three points are not on a line, that very motion is returned. The quaternion method returns a proper rotation whose sum of squared distances, weighted by the given non-negative weights, no proper rotation beats; without weights every pair counts one.", "quantifier": "all point sets, directions and non-negative weights; all singular value and eigenvalue decompositions a solver may return", "why_tests_cant": "The tests compare with one known rotation on random points; optimality against every rotation, noise, planar sets and the reflection branch are not checked.", "anchors": ["Schweizer-Messer/sm_kinematics/src/three_point_methods.cpp: threePointSvd, qMethod"]}
{"id": "C100", "title": "Keypoints own their landmark and ray", "statement": "In every history of creating, copying, assigning, swapping, changing and destroying keypoints, no object is used after it is freed, freed twice or leaked: every landmark and ray alive belongs to exactly one keypoint, none is left when the last keypoint is gone, and each getter returns what was last set in that keypoint alone. Writing a keypoint to an archive and reading it into a new one returns all but the trace id. Known exceptions, each shown by a counterexample: assignment and swap leave octave and trace id behind; setting the ray of a keypoint from its own ray reads freed memory; copies share one descriptor; reading into a keypoint that already has a landmark or ray leaks it.", "quantifier": "all finite histories over any number of keypoints, all values and archive contents", "why_tests_cant": "The unit tests copy and assign a keypoint once; aliasing and ownership depend on the whole history.", "anchors": ["aslam_cv/aslam_cameras/include/aslam_cameras/Keypoint.hpp: Keypoint::load, save", "aslam_cv/aslam_cameras/include/aslam_cameras/implementation/Keypoint.hpp: copy constructor, operator=, swap, setLandmark, setBackProjection, clearLandmark, freeAll"]}
{"id": "C101", "title": "Triangulation from two rays", "statement": "For two rays that are not parallel, triangulation returns the distance of the two lines as the gap, the parameters of the only pair of closest points, and the point half way between them, which minimises the sum of squared distances to the lines; rays through one point return that point with gap zero; the order of the rays does not matter. Parallel rays and rays of length zero give no finite result. The returned parameters are the distances along the rays for unit rays only, and are negative for points behind a camera, which are returned like any other (counterexamples given).", "quantifier": "all pairs of origins and directions over the reals", "why_tests_cant": "The unit tests use a handful of random rays and admit in a comment that the noisy case is checked loosely.", "anchors": ["aslam_cv/aslam_cameras/src/Triangulation.cpp: triangulate", "aslam_cv/aslam_cameras/include/aslam_cameras/cameras/Triangulation.hpp"]}
{"id": "C102", "title": "Undistorted images agree with the ideal camera", "statement": "The undistortion map of a pinhole camera sends every pixel of the ideal camera, up to a 64th of a pixel, to the place where the distorted camera sees the ray of that pixel (also with a rectifying rotation). With alpha = 1 all 9 by 9 samples of the original image fall inside the new image and touch its four sides; with alpha = 0 the samples on each side of the original image fall on or outside that side. Known violations, proved: the samples reach one pixel beyond the image, so even without distortion the image is stretched by W/(W-1) and with alpha = 0 the last column and row are read outside the image; source positions of 32768 pixels and more wrap around into the image.", "quantifier": "all intrinsics, resolutions, distortion functions, alphas, scales and pixels", "why_tests_cant": "The unit tests compare single images; the map is computed from arbitrary calibrations.", "anchors": ["aslam_cv/aslam_imgproc/include/aslam_imgproc/implementation/aslamcv_helper.hpp: icvGetRectangles, getOptimalNewCameraMatrix, initUndistortRectifyMap", "aslam_cv/aslam_imgproc/include/aslam_imgproc/implementation/PinholeUndistorter.hpp: setIdealGeometry"]}
{"id": "C103", "title": "Overlap of two fields of view counts the shared pixels", "statement": "For two cameras, the transformation between them, a list of non-negative sample distances and a scale, the two ratios returned are exactly the shares of the (scaled) pixels whose beam has a sampled point in view of the other camera, between 0 and 1; masks of the right size show exactly these pixels with 255 and the others with 0, and record the scale. Exchanging the cameras and inverting the transformation exchanges the results. Known violations, proved: masks of another size, such as empty ones, keep their image and only get the scale; the sampled points lie at the sample distances plus the length of the camera's ray, so that a point at the only sample distance that both cameras see can be missed.", "quantifier": "all cameras, poses, sample distances, scales, and masks", "why_tests_cant": "There is no unit test, and overlap depends on arbitrary calibrations.", "anchors": ["aslam_cv/aslam_imgproc/src/calculateOverlappingFov.cpp: calculateOverlappingFov", "aslam_cv/aslam_imgproc/include/aslam_imgproc/implementation/calculateOverlappingFov.hpp: calculateOverlappingFov", "aslam_cv/aslam_cameras/include/aslam/cameras/ImageMask.hpp: ImageMask"]}
{"id": "C104", "title": "The conjugate gradient solver solves positive definite systems", "statement": "For every sparse block matrix holding the blocks on and above the diagonal of a symmetric positive definite matrix, and every right-hand side, the initialised solver with the default number of iterations returns a vector whose (preconditioned) residual is within the tolerance, and the exact solution if the tolerance is zero; fewer iterations never give a lower energy than more; without the absolute tolerance it can be used again for the same matrix with new values. Known violations, proved: success is reported however few iterations there were; with the absolute tolerance (the default) a system whose right-hand side is below half the residual of the previous one is answered with zero; used for another matrix without initialisation it keeps the off-diagonal blocks of the first one and reports success for a wrong vector.", "quantifier": "all block sizes, symmetric positive definite block matrices, right-hand sides, tolerances and numbers of iterations", "why_tests_cant": "Convergence within n steps holds by conjugacy of all directions, for every matrix; tests run single systems, once.", "anchors": ["aslam_optimizer/aslam_sparse_block_matrix/include/aslam_sparse_block_matrix/implementation/linear_solver_pcg.hpp: solve, mult, multDiag, pcg_axy, pcg_axpy, pcg_atxpy", "aslam_optimizer/aslam_sparse_block_matrix/include/aslam_sparse_block_matrix/linear_solver_pcg.h: LinearSolverPCG, init"]}
{"id": "C105", "title": "Named timers report the statistics of exactly the intervals measured under their name", "statement": "For every sequence of creating, starting, stopping, copying and deleting timers, resetting and querying, every answer (number of samples, total, mean, variance, least, greatest, rate over the last fifty, handle, name, exception) is the one computed from the list of intervals measured under that name since its last reset; a handle once given stands for its name for ever and no other name gets it; a printed time is right to half a microsecond with less than sixty minutes. Known violations, proved: copying a running timer counts its interval twice; the clock is local time, so an interval across a change of the offset to universal time is off by that change and can be negative; the seconds can be printed as 60.000000.", "quantifier": "all histories of operations on any number of timers and names, all clock readings, all non-negative times to print", "why_tests_cant": "A mix-up of handles, a lost interval or a wrong registration order shows only in particular interleavings of many timers; tests run a few.", "anchors": ["Schweizer-Messer/sm_timing/src/Timer.cpp: Timing::getHandle, getTag, addTime, reset, getTotalSeconds, getMeanSeconds, getVarianceSeconds, getMinSeconds, getMaxSeconds, getHz, secondsToTimeString", "Schweizer-Messer/sm_timing/include/sm_timing/Timer.hpp: Timer, Timing"]}
{"id": "C106", "title": "Logging statements are filtered by the settings of the moment, and threads that log do not block each other", "statement": "For every sequence of hits of logging statements and changes of the level and of the enabled streams, the messages that reach the logger are exactly those whose level and stream are enabled at that moment, with their own stream, level and text; a statement of the kind 'once' gets through at most once and messages of a throttled statement are at least its rate apart; no interleaving of threads that log, change the level and query streams ends in a deadlock. Known violations, proved: a statement whose stream name is computed keeps the name of its first hit; after a logger threw something other than a std::exception the thread is muted; a thread enabling a stream and one hitting a statement for the first time can deadlock.", "quantifier": "all histories of statements and settings, all numbers of threads and interleavings", "why_tests_cant": "Statements cache whether they are enabled, so a stale cache needs a particular order of events; a deadlock needs a particular interleaving.", "anchors": ["Schweizer-Messer/sm_logging/src/LoggingGlobals.cpp: initializeLogLocation, checkLogLocationEnabledNoLock, notifyLoggerLevelsChanged, enableNamedStream, disableNamedStream, isNamedStreamEnabled, setLevel, print", "Schweizer-Messer/sm_logging/include/sm_logging/logging/console.hpp: SMCONSOLE_DEFINE_LOCATION, SM_LOG_COND, SM_LOG_ONCE, SM_LOG_THROTTLE"]}
{"id": "C107", "title": "Jacobians of generic scalar expressions are the derivatives of their values, except across a quotient", "statement": "For every expression of generic scalars built from design variables, constants, casts, negation, sums, differences and products, and every motion of the design variables, the Jacobian blocks times the motion are the rate of the value, and with a matrix applied on the left the corresponding multiples; exactly the design variables that occur get a block of the right height and are reported; steps of the design variable can be undone and its minimal difference is a step. Known violation, proved: a quotient hands each operand the derivative with respect to the other one, so that x/y at (1,2) gets -1/4 instead of 1/2 for x.", "quantifier": "all expression trees, values of the design variables, motions and matrices applied on the left", "why_tests_cant": "Trees are unbounded and the rate is a limit; the tests of the repository exercise products and sums but no quotient.", "anchors": ["aslam_optimizer/aslam_backend_expressions/include/aslam_backend_expressions/implementation/GenericScalarExpression.hpp: GenericScalarExpressionNodeMultiply, GenericScalarExpressionNodeDivide, GenericScalarExpressionNodeAdd, GenericScalarExpressionNodeSub, GenericScalarExpressionNodeNegated, GenericScalarExpressionNodeCasted", "aslam_optimizer/aslam_backend_expressions/include/aslam_backend_expressions/implementation/GenericScalar.hpp: GenericScalar"]}
{"id": "C108", "title": "Jacobians of matrix and quaternion expressions are the derivatives of their values, with two exceptions", "statement": "For every well-sized expression built from vector and right-translated unit quaternion design variables, constants, transposition, inversion, products, sums, differences, negation, scaling, cross products, quaternion products, inverses, conjugates, imaginary parts, rotations and exponentials, in every quaternion storage and multiplication mode, every motion of the design variables and every linear differential of the caller, the Jacobian blocks times the motion are the rate of the value pushed through that differential, wherever what is inverted is invertible and exponentials are taken of vectors longer than the small-angle threshold. The quaternion operations are associative, multiply norms, have two-sided inverses, and rotations compose and keep lengths. Known violations, proved: a left-translated unit quaternion variable contributes no Jacobian although it moves the value, and the exponential taken directly of a vector expression drops whatever is applied after it, so that 2*exp(v) gets half its Jacobian.", "quantifier": "all expression trees and sizes, quaternion modes, values and motions of the design variables and linear differentials applied on the left", "why_tests_cant": "Trees and sizes are unbounded, rates are limits, and the compositions of differentials that fail are not among those the tests build.", "anchors": ["aslam_optimizer/aslam_backend_expressions/include/aslam_backend_expressions/Differential.hpp: IdentityDifferential, MatrixDifferential, ComposedMatrixDifferential, Differential", "aslam_optimizer/aslam_backend_expressions/include/aslam_backend_expressions/implementation/GenericMatrixExpression.hpp: transpose, inverse, operator*, operator+, operator-, cross", "aslam_optimizer/aslam_backend_expressions/include/aslam_backend_expressions/implementation/QuaternionExpression.hpp: quatMult, inverse, conjugate, imag, rotate3Vector, exp", "aslam_optimizer/aslam_backend_expressions/include/aslam_backend_expressions/DesignVariableUnitQuaternion.hpp: DesignVariableUnitQuaternion", "aslam_optimizer/aslam_backend_expressions/include/aslam_backend_expressions/DesignVariableGenericVector.hpp: DesignVariableGenericVector", "aslam_optimizer/aslam_backend_expressions/include/aslam_backend_expressions/implementation/VectorExpressionNode.hpp: evaluateJacobiansImplementation"]}
{"id": "C109", "title": "The scalar normal distribution is the bell curve of its mean and variance", "statement": "A distribution can be built or changed only with a positive variance, otherwise an exception is thrown; its precision, standard deviation and normalizer always fit its variance; its density is that of the normal law, positive, symmetric about the mean and largest only there, and the log-density is its logarithm; its cumulative function has the density as derivative and is one half at the median; the Kullback-Leibler divergence is never negative and zero only between equal distributions.", "quantifier": "all means, variances, values and sequences of setters", "why_tests_cant": "The claims range over all reals and include derivatives and inequalities with equality cases.", "anchors": ["aslam_incremental_calibration/aslam_incremental_calibration/src/statistics/NormalDistribution1v.cpp: setMean, setVariance, pdf, logpdf, cdf, KLDivergence, mahalanobisDistance"]}
{"id": "C110", "title": "The estimators return the most likely normal distribution of the points since the last reset", "statement": "Whatever happened before a reset, after adding points the estimator has counted them, its mean is their average, and it is valid exactly if two points differ; a valid estimate has the spread of the points as variance and no normal distribution makes the points more likely; the order of the points is irrelevant. With responsibilities of positive sum the weighted mean and spread are returned and maximise the weighted likelihood, and nothing happens if the numbers of weights and points differ. For vectors the mean and, when accepted, the covariance are those of the points, which is symmetric and positive semi-definite and accepted exactly when the factorisation reports it positive. Known violation, proved: points added with responsibilities are neither counted nor remembered, so that the next point replaces them.", "quantifier": "all states of the estimator before the reset, all lists of points and weights, all distributions compared with", "why_tests_cant": "Optimality compares with every distribution, and the histories before a reset and the lists are unbounded.", "anchors": ["aslam_incremental_calibration/aslam_incremental_calibration/src/statistics/EstimatorMLNormal1v.cpp: addPoint, addPoints, reset, getValid, getDistribution", "aslam_incremental_calibration/aslam_incremental_calibration/include/aslam_incremental_calibration/statistics/EstimatorMLNormalMv.tpp: addPoint, addPoints, reset", "aslam_incremental_calibration/aslam_incremental_calibration/include/aslam_incremental_calibration/statistics/NormalDistributionMv.tpp: setCovariance"]}
{"id": "C111", "title": "The uniform distributions are uniform over their support", "statement": "A support can be set exactly when its bounds are in order, otherwise an exception is thrown. The density is zero outside the support and constant inside, it integrates (or sums, for integers) to one, and the variance returned is its second moment about the middle. Several numbers are independent, each with that density. Known violations, proved: the mean and median returned are half the length of the support, which is the middle only of a support that starts at zero and can lie outside the support; the covariance returned for two numbers is right only for sides of length one.", "quantifier": "all supports of reals, integers and vectors of any size, all arguments", "why_tests_cant": "The claims are integrals over the reals and sums over integer ranges of any length.", "anchors": ["aslam_incremental_calibration/aslam_incremental_calibration/include/aslam_incremental_calibration/statistics/UniformDistribution1v.tpp: setSupport, pdf, pmf, getMean, getMedian, getVariance", "aslam_incremental_calibration/aslam_incremental_calibration/include/aslam_incremental_calibration/statistics/UniformDistributionMv.tpp: setSupport, pdf, getCovariance"]}
{"id": "C112", "title": "The random samplers turn the numbers drawn into samples of their laws", "statement": "For every sequence of numbers drawn: a uniform sample lies within its bounds, in proportion to the number, and reaches both; a category is returned when the fraction drawn lies in its share of the unit interval; a Poisson sample is the number of factors before the product of the fractions falls to exp(-mean); an exponential or geometric sample is the value whose tail probability is, or brackets, the first fraction that is not zero; a normal sample is Box and Muller's from the first point inside the circle. Parameters outside the domain throw. Known violations, proved: integers at the two ends of a range are half as likely as the others; a first category of probability zero can be drawn; with an integer type the normal sampler never returns.", "quantifier": "all parameters and all sequences of drawn numbers", "why_tests_cant": "Loops draw an unbounded number of random numbers and the properties hold per sequence, not on average.", "anchors": ["aslam_incremental_calibration/aslam_incremental_calibration/include/aslam_incremental_calibration/statistics/Randomizer.tpp: sampleUniform, sampleNormal, sampleCategorical, samplePoisson, sampleExponential, sampleGeometric"]}
{"id": "C113", "title": "Gamma and chi-square distributions have the density, mode and moments of their parameters", "statement": "A distribution is built or changed only with positive parameters, otherwise an exception is thrown, and after any sequence of setters its normalizer belongs to its parameters. Its density is the gamma density, zero for negative values, and the log-density its logarithm. If that density integrates to one, the mean and variance returned are its first moment and its second moment about the mean. The mode is the only place where the density is largest; for shapes below one, where there is none, an exception is thrown. A chi-square distribution of n degrees has mean n, variance 2n and mode n - 2. The divergence between equal shapes is never negative and zero only for equal rates. Known violation, proved: between different shapes the divergence takes the digamma function at the wrong shape, and is negative from shape 1 to shape 2.", "quantifier": "all parameters, sequences of setters and values; any log-gamma and digamma functions", "why_tests_cant": "Moments are improper integrals and the mode compares with every positive number.", "anchors": ["aslam_incremental_calibration/aslam_incremental_calibration/include/aslam_incremental_calibration/statistics/GammaDistribution.tpp: setShape, setInvScale, pdf, logpdf, getMean, getMode, getVariance, KLDivergence", "aslam_incremental_calibration/aslam_incremental_calibration/src/statistics/ChiSquareDistribution.cpp: ChiSquareDistribution, setDegrees, getDegrees"]}
{"id": "C114", "title": "A linear solve releases what it allocates, whichever library call fails", "statement": "Whichever calls of the sparse libraries fail, solving or analysing a system returns a status (no exception escapes), releases no matrix twice and keeps what was allocated before; a call that succeeds leaves only the factorization of the solver allocated, and over any history of calls the matrices left behind are at most one for each call that failed. A system with more rows than columns left of the split is solved when the libraries work. Known violations, proved: a system with at most as many rows as columns left of the split fails and leaves a matrix behind with every call, so that memory grows without bound, and a library failure after the columns have been selected leaves that selection behind.", "quantifier": "all sizes, splits, options, histories of calls and patterns of library failures", "why_tests_cant": "Allocation failures inside the libraries cannot be provoked one by one, and there are as many patterns as subsets of the calls.", "anchors": ["aslam_incremental_calibration/aslam_incremental_calibration/src/core/LinearSolver.cpp: solveSystem, solve, analyzeMarginal, clear", "aslam_incremental_calibration/aslam_incremental_calibration/src/algorithms/linalg.cpp: columnSubmatrix, rowSubmatrix, columnScalingMatrix, reduceLeftHandSide, reduceRightHandSide, solveQR"]}
{"id": "C115", "title": "The calibration mutex excludes other threads and loses no wake-up", "statement": "In every schedule of threads that lock, unlock, wait with or without a time-out and wait on a condition, in which no thread uses tryLock, at most one thread holds the mutex, a mutex that is not recursive is held once, unlocking succeeds exactly for the thread that holds it, and a refused unlock or second lock changes nothing. In every schedule whatsoever, while the mutex is free and a thread waits to lock it, some thread has been woken. Known violations, proved: tryLock on a mutex that another thread holds succeeds, and the first holder can then no longer unlock it; waiting for the unlocking of a mutex that nobody holds does not return until someone locks and unlocks it; and waiting on a condition with a mutex the thread does not hold throws and blocks every later call on that mutex.", "quantifier": "all schedules, numbers of threads, choices of the woken thread, time-outs and spurious wake-ups, recursive or not", "why_tests_cant": "The schedules are chosen by the operating system and there are infinitely many; a lost wake-up shows only under a particular interleaving.", "anchors": ["aslam_incremental_calibration/aslam_incremental_calibration/src/base/Mutex.cpp: lock, unlock, waitUnlock, tryLock, safeLock, safeUnlock, safeEternalWait, safeWaitUntil", "aslam_incremental_calibration/aslam_incremental_calibration/src/base/Condition.cpp: signal, wait, safeWait, safeEternalWait, safeWaitUntil"]}
{"id": "C116", "title": "Steps and derivatives of a matrix with an update pattern", "statement": "For a 3 x 3 matrix with a pattern of constant and free entries whose last entry (in column order) is free, a step of as many numbers as the variable has dimensions is added to the free entries in turn, changes no other entry and is taken back by a revert; in the product of such a matrix with a vector, evaluated after the last change, the derivative block through a chain of three rows is exact, for the matrix and for the vector. Known violations, proved: if the last entry is constant, every step reads past the end of the numbers given; a chain that does not have three rows is not handled (undefined behaviour); and the blocks are those at the last evaluation, so that changing an operand without evaluating the product again leaves them stale.", "quantifier": "all matrices, patterns, vectors, steps and chains", "why_tests_cant": "There are 512 patterns and each has a continuum of matrices and steps; reading one number past the end usually goes unnoticed.", "anchors": ["aslam_optimizer/aslam_backend_expressions/src/MatrixTransformation.cpp: updateImplementation, revertUpdateImplementation, evaluateJacobiansImplementation", "aslam_optimizer/aslam_backend_expressions/src/EuclideanExpressionNode.cpp: EuclideanExpressionNodeMatrixMultiply"]}
{"id": "C117", "title": "The first optimizer never makes the state worse, and what it reports", "statement": "The optimization loop of Optimizer stops after at most the allowed number of iterations. With Levenberg-Marquardt, a linear solver that does not fail and steps predicted to decrease the cost, no iteration increases the cost of the state, the final state is the best one seen, and the reported cost is never below its cost and equals it if the last step was kept. With positive parameters the damping stays positive. Without Levenberg-Marquardt every step is kept and the reported cost is that of the state. Known violations, proved: if the last step was taken back, the reported final cost is that of the rejected state; a failure of the linear solver after a kept step takes that step back while its cost is still reported, and a failure in the first iteration puts the variables to whatever they kept from before; the estimate of the first damping reads the row of the block's number instead of the diagonal, so that it returns an entry beside the diagonal or reads out of range.", "quantifier": "all problems, costs, solver outcomes (including failures), options, starts and numbers of iterations", "why_tests_cant": "It ranges over every sequence of accepted and rejected steps and solver failures; a failing solver right after an accepted step is rare in practice.", "anchors": ["aslam_optimizer/aslam_backend/src/Optimizer.cpp: optimize, getLmRho, setInitialLambda, revertLastStateUpdate, applyStateUpdate"]}
{"id": "C118", "title": "Dog-leg steps of the first optimizer stay in the trust region and its rounds end", "statement": "In optimizeDogLeg a step is never longer than the radius of the trust region and reaches it unless it is the Gauss-Newton step; without a radius yet it is no longer than the midpoint of the two candidate steps. A round with a positive radius and cost keeps its step exactly if that decreases the cost, and otherwise leaves the state as it was and at least halves the radius, so that the rounds of an iteration end after at most as many halvings as take the radius to the threshold, with a state that is not worse and whose cost is the one kept. Known violations, proved: the steepest-descent step has the wrong length (for a curvature below one half it increases the quadratic model), and the decrease predicted for a step between the two candidates ignores the gradient because of an integer division.", "quantifier": "all vectors of any dimension, radii, costs, outcomes of the steps and thresholds", "why_tests_cant": "The geometry must hold for every pair of vectors in every dimension, and termination for every sequence of rejected steps.", "anchors": ["aslam_optimizer/aslam_backend/src/Optimizer.cpp: optimizeDogLeg"]}
{"id": "C119", "title": "Log lines are the format with its fields replaced", "statement": "A formatter set up with a format prints, for every event, exactly the format in which each field ${name} (letters or bars between the braces), from the left, is replaced by its value and every other character is copied; fields that nobody defines are printed as written, so that a format made only of those is printed unchanged; the severity always takes five characters and tells the levels apart. Known violation, proved: setting another format on a formatter (whose constructor sets one) does not replace the first, both are printed one after the other.", "quantifier": "all format strings, events and additional fields", "why_tests_cant": "Formats are arbitrary text, with unfinished or nested braces and adjacent fields; tests try a few well-formed ones.", "anchors": ["Schweizer-Messer/sm_logging/src/Formatter.cpp: init, createTokenFromType, print", "Schweizer-Messer/sm_logging/include/sm_logging/logging/Tokens.hpp: getString of the tokens"]}
{"id": "C120", "title": "The simple problem deletes what it owns, once", "statement": "A simple optimization problem holds the accepted variables and terms in the order of addition, refuses a variable it already holds and leaves everything as it was. When the program hands each object to an owner at most once, at every moment the deleted objects are exactly those handed over that neither the problem nor a shared pointer of the user keeps alive, each deleted once, and borrowed objects are never deleted; clearing a problem nobody else shares with deletes everything handed over. Known violation, proved: terms are not checked for repetition, and one added twice with ownership is deleted twice.", "quantifier": "all sequences of additions by address or shared pointer, releases by the user and clearings", "why_tests_cant": "Ownership depends on the whole history of shared, owned and borrowed pointers; a test follows one, and a second deletion need not be noticed.", "anchors": ["aslam_optimizer/aslam_backend/src/SimpleOptimizationProblem.cpp: addDesignVariable, addErrorTerm, isDesignVariableInProblem, clear", "aslam_optimizer/aslam_backend/include/aslam_backend/backend/SimpleOptimizationProblem.hpp: members"]}
{"id": "C121", "title": "Eliminating marginalized variables keeps the solution", "statement": "A vector solves the (damped, when Levenberg-Marquardt is on) Gauss-Newton system of all variables exactly when its kept part solves the reduced system of the Schur complement and its marginalized parts are those of the back-substitution; so a solution of the reduced system, completed by the back-substitution, is a step of the whole problem. The matrices are symmetric and stored by their upper blocks, the marginalized variables are not coupled with each other and their own blocks are invertible. Known violation, proved: coupled marginalized variables are not noticed, and the step is then no solution.", "quantifier": "all numbers and sizes of kept and marginalized variables, stored blocks, right-hand sides and dampings", "why_tests_cant": "The identity must hold for every sparsity pattern and block size; a test compares a few random systems up to rounding.", "anchors": ["aslam_optimizer/aslam_backend/src/sparse_matrix_functions.cpp: applySchurComplement, buildDsi", "aslam_optimizer/aslam_backend/src/Optimizer.cpp: applyStateUpdate"]}
{"id": "C122", "title": "The first optimizer numbers, collects and moves exactly the active variables", "statement": "Setting up the first optimizer is refused exactly when no active variable is kept; otherwise its variables are the kept ones and then the eliminated ones in the problem's order, each once, with their places as block indices and inactive ones untouched, the rows of a block start where the earlier ones end, and the error terms are those of active variables, each once. A step moves each kept variable by its own piece of the step and each eliminated one by its back-substituted step, times its scaling. The reported size is the largest change when the kept variables have scaling one. Known violation, proved: with another scaling it is not, as kept variables enter unscaled and eliminated ones scaled.", "quantifier": "all problems, activity and marginalization flags, dimensions, scalings and steps", "why_tests_cant": "Any mix of inactive, marginalized and empty variables is possible; tests set up a few problems, with scaling one.", "anchors": ["aslam_optimizer/aslam_backend/src/Optimizer.cpp: initialize, applyStateUpdate"]}
{"id": "C123", "title": "Bags are read in time order", "statement": "Opening a bag without a time span delivers every message of the topic once, in the order of the header stamps and for equal stamps in the order of storage. With a span and messages stored in time order exactly the messages of the span, counted from the first stamp and with both ends included, are delivered in time order; the number of messages delivered is right for every bag, and a span that does not end after it starts is refused. Known violations, proved: for messages stored out of order the span delivers other messages than those inside it, because places in the sorted list are taken for messages; and one reading in random order leaves the reader in that order.", "quantifier": "all bags, stamps and spans", "why_tests_cant": "Recorded bags are nearly always in order; the property is about every arrangement of stamps.", "anchors": ["aslam_offline_calibration/kalibr/python/kalibr_common/ImageDatasetReader.py: BagImageDatasetReader", "aslam_offline_calibration/kalibr/python/kalibr_common/ImuDatasetReader.py: BagImuDatasetReader"]}
{"id": "C124", "title": "Target observations are grouped by time", "statement": "With a tolerance that is not negative, the views of the observation database are further apart than the tolerance; each entry of a view is an observation that was added, no further than the tolerance from the view, the only one of its camera in that view, and in no other view. Adding an observation makes a new view if no view is within the tolerance, enters it in the nearest view if its camera has no entry there, and otherwise changes no view and reports an error; entries and reports together are as many as the observations added, and all of them stay in the archive in order. The observations listed for a camera or a pair of cameras are exactly those of the views, and two that are paired are at most twice the tolerance apart. Known violation, proved: the grouping depends on the order of adding, and observations of different cameras within the tolerance of each other can be put in different views.", "quantifier": "all tolerances that are not negative and all sequences of observations of any number of cameras", "why_tests_cant": "The grouping depends on the whole history of observations and their order, of which there are unboundedly many.", "anchors": ["aslam_offline_calibration/kalibr/python/kalibr_camera_calibration/ObsDb.py: ObservationDatabase.addObservation", "aslam_offline_calibration/kalibr/python/kalibr_camera_calibration/ObsDb.py: ObservationDatabase.getAllObsTwoCams", "aslam_offline_calibration/kalibr/python/kalibr_camera_calibration/ObsDb.py: ObservationDatabase.getAllObsCam"]}
{"id": "C125", "title": "Extraction by several processes finds what one would find", "statement": "However many processes, at least one, share the extraction of target corners and however their steps interleave, the result is the list that the extraction without processes delivers, in the same order, provided no process is killed. If processes are killed but not all, each of them costs at most one image and the rest is delivered in order. The caller waits exactly as long as a process is alive, and the processes do at most two steps for each image and one more each. Known violation, proved: the image of a killed process is missing from the result without any report.", "quantifier": "all images, detectors that answer alike for the same image, numbers of processes and interleavings of their steps, including processes killed at any point", "why_tests_cant": "The interleaving of the processes and the moment of a failure are not under the control of a test.", "anchors": ["aslam_offline_calibration/kalibr/python/kalibr_common/TargetExtractor.py: extractCornersFromDataset", "aslam_offline_calibration/kalibr/python/kalibr_common/TargetExtractor.py: multicoreExtractionWrapper"]}
{"id": "C126", "title": "Knots are refined where the errors are large", "statement": "For increasing knots and errors in time order each gap between knots, numbered up to the last, is given exactly the errors that fall strictly inside it. If no knot is left out for want of observations, the new knots are the old ones and the middles of gaps whose half is longer than the limit and whose middle is not in a disabled segment, and such a gap is split exactly if its errors exceed their number; the first and the last knot stay, and gaps longer than the limit stay so. The new spline has the old knots before the generated ones, the generated ones, and the old ones behind them. Known violations, proved: when knots without observations are left out, the last knots disappear in place of them, although there are observations there; an error at the very time of a knot counts for the last knot; and the old knot that ends the search comes in once more, so that a last knot that was kept is there twice.", "quantifier": "all knot sequences, errors with their times, limits and disabled segments", "why_tests_cant": "The refinement depends on all knots and errors together; tests look at whether a calibration converges.", "anchors": ["aslam_offline_calibration/kalibr/python/kalibr_rs_camera_calibration/ReprojectionErrorKnotSequenceUpdateStrategy.py: generateKnotList", "aslam_offline_calibration/kalibr/python/kalibr_rs_camera_calibration/ReprojectionErrorKnotSequenceUpdateStrategy.py: getUpdatedSpline"]}
{"id": "C127", "title": "The camera graph counts common corners and baselines chain along any path", "statement": "In the graph of cameras two cameras are joined exactly if they saw a common corner in some view; the weight of the edge is the number of common corners over all views, and its observations are those of exactly these views, in order and that of the lower camera first, in whatever order the cameras of a view come. If the stored pair baselines agree with poses of the cameras, the baseline chained along any path agrees with them too, whatever the directions of its edges, and the pose of the target found by any camera and brought back along the chain of baselines is its pose in the first camera.", "quantifier": "all views in which each camera is at most once, all groups of transformations, poses and paths", "why_tests_cant": "Cameras, views and paths are unbounded in number, and an edge taken in the wrong direction shows only in some arrangements.", "anchors": ["aslam_offline_calibration/kalibr/python/kalibr_camera_calibration/MulticamGraph.py: MulticamCalibrationGraph.initializeGraphFromObsDb", "aslam_offline_calibration/kalibr/python/kalibr_camera_calibration/MulticamGraph.py: MulticamCalibrationGraph.getInitialGuesses", "aslam_offline_calibration/kalibr/python/kalibr_camera_calibration/MulticamGraph.py: MulticamCalibrationGraph.getTargetPoseGuess", "aslam_offline_calibration/kalibr/python/kalibr_camera_calibration/MulticamGraph.py: MulticamCalibrationGraph.getAllMutualObsBetweenTwoCams"]}
{"id": "C128", "title": "Configurations of cameras and targets are checked", "statement": "Camera intrinsics are accepted exactly if they have the length of their model, focal lengths and principal point are floats that are not negative, and the shape parameters are in range: not negative for the omnidirectional model, the blending parameter from zero to below one for the double sphere and the extended unified model, and the second parameter of the latter not negative. Intrinsics that were set are delivered with the same numbers. Distortion coefficients are accepted exactly if there are as many as the model takes. The parameters of a calibration target are delivered exactly if the counts are integers of at least three and the sizes floats above zero, for the circle grid with a truth value for asymmetry. Known violations, proved: invalid target parameters are never refused by the reader's own error, because noting it fails; focal lengths of zero and resolutions that are not positive are accepted; and the first parameter of the double sphere is not looked at.", "quantifier": "all values of all types in the fields of a configuration", "why_tests_cant": "The checks concern every combination of types and numbers.", "anchors": ["aslam_offline_calibration/kalibr/python/kalibr_common/ConfigReader.py: CameraParameters.checkIntrinsics", "aslam_offline_calibration/kalibr/python/kalibr_common/ConfigReader.py: CameraParameters.setIntrinsics", "aslam_offline_calibration/kalibr/python/kalibr_common/ConfigReader.py: CameraParameters.checkDistortion", "aslam_offline_calibration/kalibr/python/kalibr_common/ConfigReader.py: CameraParameters.checkResolution", "aslam_offline_calibration/kalibr/python/kalibr_common/ConfigReader.py: CalibrationTargetParameters.getTargetParams"]}
