{"id": "C01", "title": "Particles stay inside their level", "statement": "At every moment of a sampling run each particle is assigned to a level that exists, and either that level is the bottom level or the particle's log-likelihood is strictly above the level's threshold. Every row written to the sample-information file therefore names an existing level whose threshold is below the row's log-likelihood (or the bottom level).", "quantifier": "every number of tasks, particles, levels and MCMC steps; every sequence of random draws, proposals and likelihood values, including NaN", "why_tests_cant": "the claim is an invariant of an unbounded random walk; a test sees one seed and one likelihood", "anchors": ["cdnest/dnest.c: update_particle, update_level_assignment, dnest_mcmc_run, kill_lagging_particles, save_particle"]}
{"id": "C02", "title": "Level thresholds are permanent and ordered", "statement": "Once a level has been created its threshold never changes and the level is never removed during a run; thresholds are non-decreasing with the level number, and strictly increasing if no two recorded log-likelihoods coincide.", "quantifier": "every run of any length, any tasks, any likelihood function; strictness for every tie-free history", "why_tests_cant": "requires reasoning about all interleavings of recording, sorting and trimming of the pool of likelihoods", "anchors": ["cdnest/dnest.c: dnest_mcmc_run, do_bookkeeping, dnest_cmp"]}
{"id": "C03", "title": "Level counters are consistent", "statement": "In every level record (in memory, in the levels file, in a restart snapshot) the number of exceedances does not exceed the number of visits and the number of accepted moves does not exceed the number of tried moves.", "quantifier": "every run, every schedule, including the renormalisation performed when the last level is created", "why_tests_cant": "a violation needs a particular combination of task increments or rounding in the renormalisation", "anchors": ["cdnest/dnest.c: update_particle, dnest_run, renormalise_visits, save_levels"]}
{"id": "C04", "title": "No lost or double-counted work between tasks", "statement": "After each communication round the shared counters of every level equal their previous value plus the sum, over all tasks, of what that task added during the round; until level building finishes, the tries summed over levels equal the total number of MCMC steps performed.", "quantifier": "every number of tasks and rounds, every draw sequence", "why_tests_cant": "MPI merging errors show only for particular task counts and histories", "anchors": ["cdnest/dnest.c: dnest_run (gather/combine), update_particle"]}
{"id": "C05", "title": "Estimated prior masses decrease", "statement": "The estimated log prior mass is 0 at the bottom level and strictly decreases with the level number, and is the sum over lower levels of the log of (exceeds + R/c)/(visits + R), with R>0 the regularisation and c>1 the compression.", "quantifier": "all counter values with exceeds <= visits, any number of levels, all R > 0, all c > 1", "why_tests_cant": "infinitely many counter values", "anchors": ["cdnest/dnest.c: recalculate_log_X"]}
{"id": "C06", "title": "The likelihood pool never overflows", "statement": "With a compression of at least 2 (the default is e) the pool that collects log-likelihoods above the top level always fits in the memory reserved for it, and a run is never aborted with 'all above overflow'; each task's own buffer also never overflows. For compressions close to 1 the abort does occur.", "quantifier": "every run, every option set accepted by the option loader, any number of tasks", "why_tests_cant": "the worst case needs every step on every task to be recorded for many rounds", "anchors": ["cdnest/dnest.c: setup (size_all_above_max), dnest_run, dnest_mcmc_run, do_bookkeeping"]}
{"id": "C07", "title": "Number of levels is bounded", "statement": "The number of levels never exceeds MaxNumberLevels when that is set, nor 1000 when it is not; no level is ever written outside the allocated table.", "quantifier": "every run and every likelihood", "why_tests_cant": "needs runs long enough to reach the limit", "anchors": ["cdnest/dnest.c: enough_levels, do_bookkeeping, setup"]}
{"id": "C08", "title": "Exactly the requested number of samples is saved", "statement": "A run started with MaxNumberSaves = M > 0 terminates, and when it does exactly M sample rows and M sample-information rows have been written and the sampler-state file records M. At any time before, the number of saved samples is floor(steps/save interval) when the save interval is at least one round of steps.", "quantifier": "all M, intervals, task counts and draws such that M * interval < 2^32; refuted beyond by the 32-bit product", "why_tests_cant": "the loop condition mixes 32- and 64-bit unsigned arithmetic; the failure needs billions of steps", "anchors": ["cdnest/dnest.c: dnest_run, save_particle"]}
{"id": "C09", "title": "Sample row and information row describe the same particle", "statement": "The k-th row of the sample file and the k-th row of the sample-information file are the parameters and the (level, log-likelihood) of one and the same particle at one and the same moment, whichever task it came from.", "quantifier": "every save event, every task, every particle", "why_tests_cant": "only visible when the saved particle comes from a non-root task through a packed message", "anchors": ["cdnest/dnest.c: save_particle"]}
{"id": "C10", "title": "All tasks agree on the level table and on when level building ends", "statement": "At the start of each round all tasks hold the same level table, and root and workers give the same answer to whether level building is finished, although only root records the final number of levels.", "quantifier": "every run, every option set, every number of tasks", "why_tests_cant": "divergence would need a specific history after level building ends", "anchors": ["cdnest/dnest.c: dnest_run, do_bookkeeping, enough_levels"]}
{"id": "C11", "title": "Replacing a lagging particle keeps the ensemble consistent", "statement": "When a lagging particle is replaced it becomes an exact copy (parameters, log-likelihood, level) of a surviving particle; the number of particles is unchanged and if all are lagging none is replaced.", "quantifier": "all particle sets and random draws", "why_tests_cant": "random event; partial copies would only bias results", "anchors": ["cdnest/dnest.c: kill_lagging_particles"]}
{"id": "C12", "title": "Level-dependent parameter limits are nested", "statement": "After each round, for each parameter, the recorded interval of a level contains the recorded interval of each higher level and each interval ever recorded earlier for that level, and it contains every parameter value recorded for that level by any task.", "quantifier": "all histories, tasks, levels, parameters", "why_tests_cant": "a merge over tasks and levels for unbounded histories", "anchors": ["cdnest/dnest.c: dnest_run (limits), update_level_assignment"]}
{"id": "C13", "title": "Integer wrap-around of level proposals", "statement": "Wrapping a proposed level index into n levels gives a number in [0,n) congruent to the proposal modulo n, for negative proposals as well.", "quantifier": "all integers y representable in C int, all n > 0", "why_tests_cant": "all 2^32 values", "anchors": ["cdnest/dnest.c: mod_int"]}
{"id": "C14", "title": "Periodic wrap of a parameter", "statement": "Wrapping a value into [min,max) returns a value in that interval which differs from the input by a whole number of interval lengths; wrapping is the identity on values already inside and idempotent; a zero-length interval returns min; a reversed interval aborts the program.", "quantifier": "all real x, min, max", "why_tests_cant": "continuum of inputs", "anchors": ["cdnest/dnest.c: mod, dnest_wrap, wrap_limit"]}
{"id": "C15", "title": "Sorting of likelihood pools", "statement": "The comparison callbacks handed to qsort are not consistent orderings (they never return a negative value, and one says an element precedes itself), yet with a merge sort that takes the left element unless the callback is positive, the result is always a permutation sorted as documented (descending for level creation, ascending for post-processing, ascending for lag centres).", "quantifier": "all arrays of any length, with ties", "why_tests_cant": "array contents and tie patterns are unbounded", "anchors": ["cdnest/dnest.c: dnest_cmp", "cdnest/dnestpostprocess.c: cmp_sample", "src/dnest_line.c: mica_cmp"]}
{"id": "C16", "title": "New level is the right quantile", "statement": "When a level is created from N recorded likelihoods, its threshold is the entry with exactly floor(N/c) entries at or above it in the sorted order; exactly those floor(N/c) entries remain recorded and none of the removed ones is larger than the threshold.", "quantifier": "all pools and compressions c > 1", "why_tests_cant": "all pool contents", "anchors": ["cdnest/dnest.c: do_bookkeeping"]}
{"id": "C17", "title": "Restart snapshot round trip", "statement": "Reading a snapshot written by the sampler with the same number of cores, particles, parameters and a level limit that is not smaller restores the save counter, the level table, the assignments, likelihoods, limits and particles bit for bit, and the step counter modulo 2^32 (so exactly when fewer than 2^32 steps were done).", "quantifier": "all states, any number of tasks, levels and parameters; byte-level file contents", "why_tests_cant": "covers all states and the truncation of a 64-bit counter that no practical test reaches", "anchors": ["cdnest/dnest.c: dnest_save_restart, dnest_restart"]}
{"id": "C18", "title": "Restart with fewer levels is safe", "statement": "If a snapshot with more levels than the new limit is read, exactly the lowest levels up to the limit are kept, assignments above are moved to the top kept level, everything after the level table is still read from the right position, and after re-evaluation every particle is on an existing level not above its log-likelihood, provided its log-likelihood is not below the bottom threshold.", "quantifier": "all snapshots, limits and re-evaluated likelihoods; refuted for minus infinity and for NaN", "why_tests_cant": "needs snapshots with particular relation of sizes, and likelihood values that are not finite", "anchors": ["cdnest/dnest.c: dnest_restart"]}
{"id": "C19", "title": "Stop, restart and crash: rows and counters", "statement": "After a run that ended normally, restarting from its final snapshot with a larger limit M2 ends with exactly M2 rows in each file. After a crash at an arbitrary point between two snapshots, restarting from the latest snapshot leaves rows in the files that belong to the abandoned part, and the two files can get out of step, so this guarantee fails.", "quantifier": "every crash point and every prefix of buffered output that reached the disk", "why_tests_cant": "quantifies over crash points and file-system state", "anchors": ["cdnest/dnest.c: initialize_output_file, dnest_restart, dnest_run, save_particle", "cdnest/dnestpostprocess.c: postprocess"]}
{"id": "C20", "title": "Option file semantics", "statement": "Every line of an option file is a comment, is ignored for having fewer than two words, sets exactly one known option for the first time, or stops the program; the values in force do not depend on the order of lines; an omitted save-interval factor equals the new-level factor; and accepted options satisfy new-level interval >= tasks * steps per task.", "quantifier": "all option files", "why_tests_cant": "all files", "anchors": ["cdnest/dnest.c: options_load, dnest_search_pardict"]}
{"id": "C21", "title": "Posterior weights and evidence", "statement": "After post-processing the posterior weights of the samples are positive and sum to one, the prior weights sum to one, and the log-evidence lies between the smallest and largest (tempered) log-likelihood of the samples.", "quantifier": "all finite sample sets with at least one sample, all level tables, all temperatures >= 1", "why_tests_cant": "real-valued inputs of any size", "anchors": ["cdnest/dnestpostprocess.c: postprocess, logsumexp"]}
{"id": "C22", "title": "Effective sample size", "statement": "The effective sample size lies between 1 and the number of samples, so the posterior sample is never larger than the sample; it is 1 only if one sample carries all the weight and equals the number of samples only for equal weights.", "quantifier": "all weight vectors", "why_tests_cant": "continuum of weights", "anchors": ["cdnest/dnestpostprocess.c: postprocess"]}
{"id": "C23", "title": "Prior mass assigned to samples within a level", "statement": "Samples sandwiched between two levels are assigned strictly decreasing prior masses strictly between the masses of the levels, in ascending order of likelihood, provided at least two samples are there; with exactly one sample the written prior mass is not a number although the weight is still well defined.", "quantifier": "all level tables and sample sets", "why_tests_cant": "depends on counts per level; the singular case is easy to miss", "anchors": ["cdnest/dnestpostprocess.c: postprocess"]}
{"id": "C24", "title": "Posterior sample is drawn from the sample", "statement": "Each row of the posterior sample file is a row of the sample file, and the same row of the posterior information file is that sample's (tempered) log-likelihood; the file announces as many rows as it contains; a draw is accepted with probability proportional to its weight.", "quantifier": "all samples and random draws", "why_tests_cant": "random draws", "anchors": ["cdnest/dnestpostprocess.c: postprocess"]}
{"id": "C25", "title": "Log-domain helpers", "statement": "The log-sum-exp and log-diff-exp helpers compute exactly log(sum exp x_i) and, for x1 > x2, log(exp x1 - exp x2); log-sum-exp is invariant under permutation and shifts with the inputs and never evaluates exp of a positive number.", "quantifier": "all real vectors", "why_tests_cant": "continuum", "anchors": ["cdnest/dnestpostprocess.c: logsumexp, logdiffexp"]}
{"id": "C26", "title": "Fast covariance solver solves the covariance system", "statement": "The O(n) solver used for the continuum returns z with C z = y, where C_ij = s^2 exp(-|t_i-t_j|/tau) plus (error_i^2 + syserr^2) on the diagonal; the matrix version does the same for every column and the inverse routine returns the inverse of C.", "quantifier": "all n, all sorted times (ties allowed when errors are positive), all variances and right-hand sides", "why_tests_cant": "all dimensions and real inputs", "anchors": ["src/mathfun.c: compute_semiseparable_drw, multiply_matvec_semiseparable_drw, multiply_mat_semiseparable_drw, inverse_semiseparable"]}
{"id": "C27", "title": "Fast log-determinant", "statement": "The log-determinant returned with the fast factorisation equals the logarithm of the determinant of the covariance matrix.", "quantifier": "all n, all sorted times and errors", "why_tests_cant": "all dimensions and real inputs", "anchors": ["src/mathfun.c: compute_semiseparable_drw"]}
{"id": "C28", "title": "Continuum covariance is positive definite", "statement": "For strictly increasing times, or positive measurement errors, every pivot of the fast factorisation is strictly positive, so no logarithm or division is undefined and the covariance matrix is positive definite.", "quantifier": "all n, sorted times, errors", "why_tests_cant": "all dimensions and real inputs", "anchors": ["src/mathfun.c: compute_semiseparable_drw"]}
{"id": "C29", "title": "Partitioned inverse", "statement": "The block-partition inverse, applied once or iteratively over any number of light curves, returns the inverse of the full covariance matrix and its log-determinant, whenever the leading blocks and the Schur complements are invertible; the returned matrix is the full matrix only if there is at least one line.", "quantifier": "all block sizes, number of lines and symmetric matrices satisfying the hypothesis", "why_tests_cant": "all dimensions and matrices", "anchors": ["src/mathfun.c: inverse_symat_partition, inverse_symat_partition_inv, inverse_symat_partition_iter, inverse_semiseparable_iter"]}
{"id": "C30", "title": "Likelihood is the trend-marginalised Gaussian likelihood", "statement": "The log-likelihood computed with matrices scaled by sigma equals -1/2 (y-Lq)^T S^-1 (y-Lq) - 1/2 log det S - 1/2 log det(L^T S^-1 L) for the unscaled covariance S, where q is the generalised least-squares estimate; q minimises the chi-square over all trends, and the value does not change if any trend L v is added to the data.", "quantifier": "all data, dimensions and parameter values for which S and L^T S^-1 L are invertible", "why_tests_cant": "an algebraic identity over reals in all dimensions", "anchors": ["src/mc_line.c: prob_line_variability4", "src/mc_con.c: prob_con_variability_semiseparable"]}
{"id": "C31", "title": "Top-hat responses: covariance formulas", "statement": "For a top-hat transfer function the closed forms used for the continuum-line and line-line covariances equal the convolution integrals of the damped-random-walk covariance with the transfer functions, for every number of components.", "quantifier": "all real lags, widths > 0, damping times > 0, amplitudes, component counts", "why_tests_cant": "piecewise formulas with five branches over a continuum", "anchors": ["src/mc_line.c: Slc_tophat, Sll_tophat, Sll2_tophat"]}
{"id": "C32", "title": "Exponential responses: covariance formulas", "statement": "For exponential transfer functions the closed forms used for continuum-line and line-line covariances equal the (improper) convolution integrals, including the special branch for equal time scales when the scales are exactly equal; inside the tolerance band of the special branch the formula is only approximate, with an error of at most a small multiple of the tolerance times the amplitudes.", "quantifier": "all real parameters", "why_tests_cant": "continuum of inputs with removable singularities", "anchors": ["src/mc_line.c: Slc_exp, Sll_exp, Sll2_exp"]}
{"id": "C33", "title": "Gamma responses: covariance formulas", "statement": "For gamma (k=2) transfer functions the closed forms used for continuum-line and line-line covariances equal the convolution integrals, with the same provisos as for exponential responses.", "quantifier": "all real parameters", "why_tests_cant": "continuum of inputs with removable singularities", "anchors": ["src/mc_line.c: Slc_gamma, Sll_gamma, Sll2_gamma"]}
{"id": "C34", "title": "Gaussian responses: covariance formulas", "statement": "For Gaussian transfer functions the continuum-line covariance formula written with the log complementary error function equals the convolution integral, and the line-line formula is the same with the widths added in quadrature.", "quantifier": "all real parameters", "why_tests_cant": "continuum of inputs", "anchors": ["src/mc_line.c: Slc_gauss, Sll_gauss, Sll2_gauss"]}
{"id": "C35", "title": "Array and scalar covariance routines agree", "statement": "The routines that fill whole covariance blocks give entry by entry the same value as the scalar routines, for all four transfer-function types; the line-line covariance is symmetric: exchanging both the two times and the two lines leaves it unchanged. For exponential and gamma responses the exchange can fail in one case only: a width inside the tolerance band of the equal-scales branch but not equal to the damping time, and times exactly at the peak of a pair of components.", "quantifier": "all time arrays, parameters, component counts", "why_tests_cant": "four times three duplicated routines over all inputs", "anchors": ["src/mc_line.c: Slc_array_*, Sll_array_*, Sll2_array_*, Sll_*, Sll2_*"]}
{"id": "C36", "title": "The assembled covariance matrix is complete and symmetric", "statement": "After assembling the joint covariance of a continuum and any number of lines, every entry of the matrix has been written, the matrix is symmetric, the noise-free and noisy matrices differ only on the diagonal and there by error^2/sigma^2, and each entry is the covariance of the two light-curve points in question.", "quantifier": "all numbers of lines and points", "why_tests_cant": "index arithmetic over all shapes", "anchors": ["src/mc_line.c: set_covar_Pmat_data_line, set_covar_Pmat_data_line_array, set_covar_Umat_line, set_covar_Amat_line"]}
{"id": "C37", "title": "Work arrays never overlap or overflow", "statement": "The shared work array is large enough for every use made of it in likelihood evaluation and reconstruction, and the pieces carved from it do not overlap, for every data set.", "quantifier": "all data shapes: numbers of sets, lines, points, trend order, oversampling", "why_tests_cant": "an overflow needs a particular combination of sizes", "anchors": ["src/init.c: allocate_memory_variability", "src/mc_line.c: prob_line_variability4, reconstruct_line_from_varmodel3", "src/mc_con.c: prob_con_variability_semiseparable, reconstruct_con_from_varmodel_semiseparable", "src/mathfun.c: inverse_symat_partition_iter"]}
{"id": "C38", "title": "Parameter layout", "statement": "Every (data set, line, component, role) is mapped to its own parameter slot inside the parameter vector when transfer functions are not shared; the slots of different lines are disjoint and together with the variability parameters they exactly tile the vector. When transfer functions are shared, lines with the same number share slots and nothing else.", "quantifier": "all numbers of sets, lines per set, components", "why_tests_cant": "index arithmetic over all shapes", "anchors": ["src/dnest_line.c: dnest_line, set_idx_line_pm, check_gauss_center", "src/init.c: idx_con_pm"]}
{"id": "C39", "title": "Parameters respect their prior ranges", "statement": "Every parameter vector proposed by the sampler, initially or by perturbation, has every free parameter within its prior range, every fixed parameter at its fixed value, and (option 2) every tied parameter at the value of the first set, in all fitting modes, when the positivity option is off. Under lag prior 0, where centres are sorted, this needs the centres of a line to have one range: with a prior file giving them different ranges it is false. In virtual-map mode it is proved for lag priors other than 0 (see C58). What the program itself fixes is given for every mode: systematic errors not asked for at factor 1, centres on the grid of lag priors 2 and 3, widths of top-hats under lag prior 3 in the general mode, tied parameters; nothing else (for the virtual mode see C103).", "quantifier": "all random draws, any number of perturbations, all ranges", "why_tests_cant": "random draws are unbounded (heavy tails)", "anchors": ["src/dnest_line.c: from_prior_line, perturb_line_prior0, perturb_line_prior1", "src/dnest_con.c: from_prior_con, perturb_con", "src/dnest_line.c:75-189", "src/dnest_mmap.c:76-157", "src/dnest_pmap.c:73-101", "src/dnest_con.c:51-64"]}
{"id": "C40", "title": "Component order is preserved with prior type 0", "statement": "With lag prior type 0 and more than one component the component centres are in ascending order in every parameter vector proposed, initially and after any number of perturbations, when no centre is fixed and the positivity option is off; with the positivity option the initial vector may violate it.", "quantifier": "all draws and histories", "why_tests_cant": "invariant of a random walk", "anchors": ["src/dnest_line.c: from_prior_line, perturb_line_prior0, mica_cmp"]}
{"id": "C41", "title": "Positivity option at initialisation", "statement": "When positive lags are requested, the initial parameter vector should have each component's centre at least a given multiple of its width above zero and stay in its prior range. This fails in every mode: the test compares the amplitude with the centre instead of the centre with the width, and the fallback can leave the prior range.", "quantifier": "all draws", "why_tests_cant": "the failing slot is only visible through the index arithmetic", "anchors": ["src/dnest_line.c: from_prior_line", "src/dnest_pmap.c: from_prior_pmap", "src/dnest_vmap.c: from_prior_vmap", "src/dnest_mmap.c: from_prior_mmap"]}
{"id": "C42", "title": "Data file header parsing", "statement": "A header naming for each set n_con:n_1:...:n_k gives a set with k lines and these numbers of points, and the number of data rows read afterwards is their sum, when all numbers are positive. With a zero entry followed by another line the entry counts get out of step.", "quantifier": "all headers", "why_tests_cant": "all strings", "anchors": ["src/read.c: read_data"]}
{"id": "C43", "title": "Gap prior string", "statement": "A gap prior string c1:w1:c2:w2:... gives set i the centre c_i and width w_i. This holds for the first set only: set i actually gets the i-th and (i+1)-th numbers.", "quantifier": "all numbers of sets and values", "why_tests_cant": "a test with one set passes", "anchors": ["src/read.c: get_seasonal_gap_allset", "docs/gap.rst"]}
{"id": "C44", "title": "Response-ratio prior string", "statement": "A response-ratio prior string with p pairs of numbers gives p ranges and the remaining components repeat the last range. This holds for one pair only; for two or more pairs the parser runs past the end of the string (null pointer).", "quantifier": "all numbers of pairs", "why_tests_cant": "a test with one pair passes", "anchors": ["src/mc_pmap.c: mc_pmap_init", "docs/prm.rst"]}
{"id": "C45", "title": "Lag and width prior strings", "statement": "A lag (width) prior string with at least two numbers per component gives component k the (2k)-th and (2k+1)-th numbers, and a string with fewer numbers stops the program.", "quantifier": "all strings and component counts", "why_tests_cant": "all strings", "anchors": ["src/mc_line.c: mc_line_init", "src/init.c: init (width prior)"]}
{"id": "C46", "title": "Parameter file semantics", "statement": "Every line of the main parameter file is a comment, is ignored for having fewer than two words, sets one known parameter for the first time, or stops the program; values do not depend on line order (aliases aside); after the checks the accepted values satisfy the documented constraints, except that FlagNegativeResp may be any integer.", "quantifier": "all parameter files", "why_tests_cant": "all files", "anchors": ["src/read.c: read_parset"]}
{"id": "C47", "title": "Normalisation is undone on output", "statement": "Reconstructed fluxes written to disk are in the units of the input: scaling every light curve by its normalisation factor before and multiplying by the same factor afterwards is the identity, all factors are positive for positive mean fluxes, and all light curves use the same factor where the model requires it.", "quantifier": "all data", "why_tests_cant": "all data", "anchors": ["src/read.c: scale_con_line", "src/mc_line.c: output_reconstruction_parallel"]}
{"id": "C48", "title": "Reconstruction does not depend on the number of cores", "statement": "Distributing the posterior sample over the tasks assigns every posterior row to exactly one task, for any number of rows and tasks, so means and standard deviations written do not depend on the number of tasks; the variance under the square root is never negative.", "quantifier": "all sample sizes and task counts, including fewer rows than tasks", "why_tests_cant": "all combinations of sizes", "anchors": ["src/mc_line.c: output_reconstruction_parallel"]}
{"id": "C49", "title": "Prior file loading terminates and respects comments", "statement": "Loading a prior file terminates; lines starting with '#' are ignored; each other line sets the range and fix flag of the named parameter only. This fails: a comment or blank line makes the loader loop forever.", "quantifier": "all prior files", "why_tests_cant": "a hang on inputs the documentation allows", "anchors": ["src/init.c: load_par_names", "docs/para_prior.rst"]}
{"id": "C50", "title": "Best number of components", "statement": "The reported best number of components is one with the largest evidence among those tried, the smallest such number when there are ties; NaN evidences are never chosen unless all are.", "quantifier": "all evidence vectors", "why_tests_cant": "all vectors incl. NaN", "anchors": ["src/mc_line.c: mc_line", "src/mc_pmap.c: mc_pmap"]}
{"id": "C51", "title": "Version comparison", "statement": "The version check returns 1, 0 or -1 according to whether the given version is greater than, equal to or lower than the library version in lexicographic order of (major, minor, patch). This fails: a lower patch number is reported as equal.", "quantifier": "all version triples", "why_tests_cant": "one missing comparison", "anchors": ["cdnest/dnest.c: dnest_check_version"]}
{"id": "C52", "title": "Posterior mean and spread of parameters", "statement": "The best-fit values are the arithmetic mean and the sample standard deviation (n-1) of the posterior sample; the deviation is 0 for a single row and always defined; the mean lies within the range of the sample.", "quantifier": "all samples", "why_tests_cant": "all samples", "anchors": ["src/mc_line.c: postprocess_line", "src/mc_con.c: postprocess_con"]}
{"id": "C53", "title": "Response-ratio transformation", "statement": "Converting ratios to amplitudes adds, for every line, the first component's log-amplitude to that of each other component and changes nothing else; the in-place and the copying versions agree; the sampler's particle is not modified by a likelihood evaluation.", "quantifier": "all parameter vectors and shapes", "why_tests_cant": "all shapes", "anchors": ["src/mc_pmap.c: transform_response_ratio, transform_response_ratio_inplace, prob_line_variability4_pmap"]}
{"id": "C54", "title": "Loaded prior ranges are intersected with the continuum fit", "statement": "After loading a prior file the range of each variability parameter is the intersection of the loaded range with the five-sigma range of the continuum fit when the latter has positive width, otherwise the loaded range; an empty intersection stops the program.", "quantifier": "all ranges and fits", "why_tests_cant": "all reals", "anchors": ["src/init.c: set_drw_par_range_load"]}
{"id": "C55", "title": "Elapsed time", "statement": "The reported hours, minutes and seconds add up to the elapsed whole seconds with minutes and seconds below 60.", "quantifier": "all elapsed times", "why_tests_cant": "all values", "anchors": ["src/system.c: get_hms"]}
{"id": "C56", "title": "Gap check uses the data set of the changed parameter", "statement": "When a centre or width is perturbed, the seasonal-gap penalty is computed with the gap of the data set the parameter belongs to. With shared transfer functions it always uses the gap of the last data set, whichever line was perturbed.", "quantifier": "all numbers of sets, lines, components and all parameters", "why_tests_cant": "the lookup walks an index table built from the shape of the data", "anchors": ["src/dnest_line.c: get_idx_set, perturb_line_prior0, perturb_line_prior1"]}
{"id": "C57", "title": "Tied transfer functions need enough lines in the first set", "statement": "With the option tying the centres and widths of all sets to the first one, a later set with more lines than the first should be rejected. It is not: every draw from the prior then reads index-table entries that were never written.", "quantifier": "all shapes with such a set, all draws", "why_tests_cant": "undefined behaviour that may go unnoticed", "anchors": ["src/dnest_line.c: set_center_width, set_idx_line_pm"]}
{"id": "C58", "title": "Virtual-map mode with lag prior 0", "statement": "A perturbation never ends the program. In virtual-map mode with lag prior 0 it can: the first centre is set to zero after the centres were sorted, so with three or more components and negative lags allowed the interval between the neighbours of the second centre can be reversed, and the wrapping function then exits.", "quantifier": "all shapes and ranges of that kind", "why_tests_cant": "needs particular draws", "anchors": ["src/dnest_vmap.c: from_prior_vmap, perturb_vmap_prior0", "cdnest/dnest.c: dnest_wrap"]}
{"id": "C59", "title": "The reconstruction covers the data", "statement": "The times at which a set is reconstructed are min(3 n, NumPointRec) equally spaced increasing times, the same for all its curves, that begin before the first and end after the last datum of every curve of the set. This fails for a line without data (read outside the array) and for a single point (NaN).", "quantifier": "all data sets with ordered times, all numbers of points, all extensions of the range", "why_tests_cant": "all data shapes, including lines without data", "anchors": ["src/mc_line.c: output_reconstruction_parallel"]}
{"id": "C60", "title": "The reconstruction is the best linear unbiased prediction", "statement": "For each reconstructed time, the value the program returns is a linear combination of the data that is right on average whatever the trends of the curves, among all such combinations it has the smallest variance of the error, the combination with that property is unique, and the returned error is the square root of that variance (never negative, never the root of a negative number). The returned trend coefficients minimise chi-square. For the continuum alone this holds without further hypothesis on the covariances; the damped random walk covariance is non-negative at any times.", "quantifier": "all data, errors, parameters, orders of the trend, numbers of lines and reconstructed times", "why_tests_cant": "optimality compares with every other linear combination; all times and all data", "anchors": ["src/mc_line.c: reconstruct_line_from_varmodel3", "src/mc_mmap.c: reconstruct_line_from_varmodel_mmap", "src/mc_con.c: recostruct_con_from_varmodel_semiseparable, set_covar_Umat", "src/mathfun.c: multiply_mat_MN_alpha_beta, inverse_mat"]}
{"id": "C61", "title": "Mixed responses: covariance of the continuum with a line", "statement": "In the mixed model every component of a line has its own shape (Gaussian, top-hat, gamma, exponential) given by a digit of the shape string. For every string of digits 0 to 3, the covariance function of the continuum with a line is the integral of the line's transfer function, the sum of the components with their shapes, times the damped random walk covariance, whenever no gamma or exponential scale lies strictly inside the tolerance band around the damping time.", "quantifier": "all times, all shape strings, all numbers of components, all parameters outside the band", "why_tests_cant": "the integral identity holds for a continuum of parameters and for all combinations of shapes", "anchors": ["src/mc_mmap.c: Slc_mmap, Slc_gauss_mmap, Slc_tophat_mmap, Slc_gamma_mmap, Slc_exp_mmap, FP_Slc"]}
{"id": "C62", "title": "Mixed responses: covariance of two lines", "statement": "For every shape string the covariance function of two lines (or of one line with itself) is the double integral of the two transfer functions times the damped random walk covariance: each of the sixteen routines for pairs of shapes computes its double integral, and the table of routines is indexed with the shape of the first and of the second component in that order. Scales strictly inside the tolerance band are excluded.", "quantifier": "all times, all shape strings, all numbers of components, all parameters outside the band", "why_tests_cant": "sixteen closed formulas with branches, each over a continuum of parameters and lags", "anchors": ["src/mc_mmap.c: Sll_mmap, Sll2_mmap, Sll_gau_exp, Sll_gau_gam, Sll_exp_gam, Sll_gau_tophat, Sll_exp_tophat, Sll_gam_tophat and the routines with the shapes exchanged, FP_Sll"]}
{"id": "C63", "title": "Mixed responses: arrays and symmetry", "statement": "The array routines of the mixed model, which fill a work array per component and add it up, give entry by entry the values of the scalar routines, whatever was in the matrix and in the work array before; the block of a line with itself is filled on and below the diagonal and nothing above it is touched. Exchanging the two lines together with the two times does not change the covariance, except possibly exactly at the peak of two components of the same gamma or exponential shape inside the tolerance band.", "quantifier": "all numbers of times, all times, all shape strings and parameters, any previous contents", "why_tests_cant": "any previous contents and sizes; 48 copies of the formulas", "anchors": ["src/mc_mmap.c: Slc_array_mmap, Sll_array_mmap, Sll2_array_mmap, FP_Slc_array, FP_Sll_array, FP_Sll2_array"]}
{"id": "C64", "title": "Mixed responses inside the tolerance band", "statement": "When the scale of a gamma response lies within 1e-5 of the damping time without being equal, the routine for a Gaussian and a gamma response mixes the two scales in one exponent, and the error is not small: for a line made of a Gaussian of width 1000 and a gamma response of scale 0.999991 with damping time 1, all inside the prior for a time span of 3000, the returned variance of the line is below -500, although the true variance is not negative.", "quantifier": "there is an admissible parameter vector", "why_tests_cant": "the band has relative width 1e-5, random parameters practically never fall into it", "anchors": ["src/mc_mmap.c: Sll_gau_gam, Sll_gam_gau and their array versions, branch fabs(diff) <= EPS"]}
{"id": "C65", "title": "Decomposition: covariances of one component", "statement": "When a line is decomposed, the covariance functions for component k give the covariance of that component alone with the continuum, with a whole line, and with itself, as integrals over its transfer function; their sums over the components are the covariance functions of the whole line; and the two matrices of the decomposition hold these values, entry by entry, for the continuum and for component k of every line. This holds when 1/width and 1/taud of gamma and exponential components differ by at least 1e-5 or not at all. The tolerance is compared with a rate that carries a unit, so the exception is not a narrow band: with taud 1e6 and width 2e5 the routine for the component returns more than 1.9, where the covariance is at most 1 and the routine for the whole line is exact.", "quantifier": "all times, shapes, numbers of components, lines and points, all parameters outside the band; the failure for one admissible parameter vector", "why_tests_cant": "integral identities over a continuum of parameters; the failure needs time scales of 1e5 and more, which test data do not have", "anchors": ["src/line_decomp.c: Slc_single_*, Sll_single_*, Sll2_single_*, Sll_single2_*, set_covar_Umat_line_single, set_covar_Amat_line_single"]}
{"id": "C66", "title": "Decomposition: the curves of the components", "statement": "The decomposed curve of a component is the best linear unbiased prediction of that component, whose trend is the trend of the line times the component's part of the area (no trend when areas may be negative); the trend coefficients minimise chi-square; the decomposed continuum is the reconstructed continuum; and the curves of all components add up to the reconstructed line (less its trend when areas may be negative). The printed error is the least error of any linear prediction for a known trend; it is not the standard error of the prediction printed with it: there are data where it is smaller than the error of every unbiased prediction.", "quantifier": "all data, numbers of lines, components, points and trend coefficients, any positive definite covariance, any previous contents of the arrays", "why_tests_cant": "optimality is a statement about all linear predictions; the components agree with the line only as exact real numbers", "anchors": ["src/line_decomp.c: decompose_single_component", "src/line_decomp_mmap.c: decompose_single_component_mmap", "src/mc_line.c: reconstruct_line_from_varmodel3"]}
{"id": "C67", "title": "Decomposition of mixed responses: covariances of one component", "statement": "In the mixed model the covariance functions for component k use the shape of that component and give its covariance with the continuum and with a whole line as integrals; their sums over the components are the covariance functions of the whole line, for every shape string; and the matrix of the targets with the data holds these values. The variance of the component comes from a function pointer set by another option: it is right only if the component has the shape that option names, and there is a shape string with components of two shapes for which it is wrong.", "quantifier": "all times, shape strings, numbers of components, lines and points, all parameters outside the band; the failure for one admissible string and parameter vector", "why_tests_cant": "integral identities for all shape strings; the wrong variance only changes printed errors", "anchors": ["src/line_decomp_mmap.c: Slc_single_mmap, Sll_single_mmap, Sll2_single_mmap, set_covar_Umat_line_single_mmap, set_covar_Amat_line_single_mmap"]}
{"id": "C68", "title": "The covariance matrices are positive definite", "statement": "The covariances of a damped random walk and of any number of lines that are its convolutions with transfer functions of the four shapes form, with positive errors, a symmetric positive definite matrix for any choice of times, also repeated and out of order. Together with one more point of the continuum, of a line, of a component or of any other such response, no combination has negative variance. The order of the two integrals in the covariance of two lines does not matter. The matrices the program fills, point by point, by arrays and for mixed responses, divided by sigma^2, are these, and positive definite.", "quantifier": "all times, numbers of points, lines and components, shapes, areas of either sign, centres, widths, damping times, positive errors; for the program all parameters at which its formulas are exact", "why_tests_cant": "positive definiteness is a statement about all vectors and all sets of times; near-singular cases are lost in rounding", "anchors": ["src/mc_line.c: set_covar_Pmat_data_line, set_covar_Pmat_data_line_array", "src/mc_mmap.c: set_covar_Pmat_data_line_array_mmap"]}
{"id": "C69", "title": "Likelihood of a data set, from the parameters to the value", "statement": "For one data set the likelihood function returns the logarithm of the Gaussian likelihood of the data with the trends integrated out (up to a constant): the covariance is that of a damped random walk and its convolutions with the transfer functions of the parameters, plus measured and systematic errors on the diagonal. Nothing is assumed about the matrices in between, and the early returns are never taken. For responses of one shape and for mixed responses.", "quantifier": "all data with at least one line, continuum times in order, nonzero total errors and enough different times for the trend; all parameters at which the covariance formulas are exact; any previous contents of the work arrays", "why_tests_cant": "the value is compared with a quantity defined by integrals and a minimum over all trends, for all data", "anchors": ["src/mc_line.c: prob_line_variability4, set_covar_Pmat_data_line_array", "src/mc_mmap.c: prob_line_variability_mmap, set_covar_Pmat_data_line_array_mmap", "src/mathfun.c: inverse_semiseparable_iter"]}
{"id": "C70", "title": "Reconstructed light curves, from the parameters to the curves", "statement": "For one data set and one parameter vector every reconstructed point, of the continuum and of each line, is the best linear unbiased prediction of the damped random walk or of its convolution with the line's transfer function at that time, and the reconstructed error is the standard error of that prediction; the trend coefficients minimise chi-square. Nothing is assumed about the matrices in between. For responses of one shape and for mixed responses.", "quantifier": "all data as in C69, all reconstruction times, all parameters at which the covariance formulas are exact; any previous contents of the work arrays", "why_tests_cant": "optimality is a statement about all linear predictions, with covariances defined by integrals", "anchors": ["src/mc_line.c: reconstruct_line_from_varmodel3, set_covar_Umat_line, set_covar_Amat_line", "src/mc_mmap.c: reconstruct_line_from_varmodel_mmap"]}
{"id": "C71", "title": "Likelihood of lines without a continuum", "statement": "With a virtual driving curve (vmap) and at least two lines, the likelihood function returns the logarithm of the Gaussian likelihood of the lines with the trends integrated out (up to a constant): the lines are convolutions of one damped random walk, of which nothing is measured, with the transfer functions of the parameters. Nothing is assumed about the matrices in between. With a single line the value is wrong: the covariance matrix is used without being inverted.", "quantifier": "all data of two or more lines with nonzero total errors and enough different times for the trend; all parameters at which the covariance formulas are exact; any previous contents of the work arrays; one data set with a single line for the wrong value", "why_tests_cant": "the value is compared with a quantity defined by integrals and a minimum over all trends, for all data", "anchors": ["src/mc_vmap.c: prob_line_variability4_vmap, set_covar_Pmat_data_line_array_vmap, set_covar_Pmat_data_line_vmap", "src/mathfun.c: inverse_semiseparable_iter"]}
{"id": "C72", "title": "Reconstructed curves for lines without a continuum", "statement": "Every reconstructed point of a line is the best linear unbiased prediction from all lines, with its standard error. Every reconstructed point of the virtual driving curve has the best value; its error is the one valid if the trends of the lines were known, which is smaller than the standard error of the best unbiased prediction (an example is proved). The trend coefficients minimise chi-square and are stored behind the unused ones of the driving curve.", "quantifier": "all data of at least one line as in C71, all reconstruction times, all parameters at which the covariance formulas are exact; any previous contents of the work arrays; one data set for the too small error", "why_tests_cant": "optimality is a statement about all linear predictions, with covariances defined by integrals", "anchors": ["src/mc_vmap.c: reconstruct_line_from_varmodel_vmap, set_covar_Umat_line_vmap, set_covar_Amat_line_vmap"]}
{"id": "C73", "title": "Normalization of the reconstructed driving curve", "statement": "The normalized driving curve has mean zero and the requested root mean square; it is the old curve shifted and stretched by one positive factor, its errors are stretched by the same factor, and the curves stored behind it are unchanged. A division by zero happens exactly when the curve is constant or empty.", "quantifier": "all curves and errors, all lengths, all positive target values", "why_tests_cant": "equalities over the reals for curves of any length; the failing cases are characterised exactly", "anchors": ["src/mc_vmap.c: light_curve_normalize"]}
{"id": "C74", "title": "Likelihood of all data sets from the parameter vector", "statement": "For every parameter vector of the sampler the general, the mixed and the virtual mode return the sum over all data sets of the logarithms of the Gaussian likelihoods, trends integrated out. In the likelihood of a set the damping time, the amplitude and the systematic error of the continuum are the parameters of that set (or the common ones), and the systematic error and components of each line are the parameters in the slots assigned to that line of that set (or to lines of that number). -DBL_MAX is never returned.", "quantifier": "all numbers of sets, lines, points and components, both layouts of the line parameters and both of the variability parameters, all parameters at which the covariance formulas are exact, any contents of the work arrays left by earlier sets or calls", "why_tests_cant": "equality of real-valued formulas with integrals, for any number of sets and any layout; a slot of the wrong set or line still gives a plausible number", "anchors": ["src/mc_line.c: prob_line_variability4", "src/mc_mmap.c: prob_line_variability_mmap", "src/mc_vmap.c: prob_line_variability4_vmap", "src/dnest_line.c: set_idx_line_pm"]}
{"id": "C75", "title": "Likelihood in the ratio mode", "statement": "In the ratio mode the likelihood is the Gaussian likelihood of responses in which the first component of each line has the amplitude of its parameter and every later component the product of its parameter's value and that amplitude; centres, widths, systematic errors and variability are as in the parameter vector.", "quantifier": "all numbers of sets, lines and points, all numbers of components from one on, all layouts, all positions of the transformed copy that do not overlap the parameter vector, all parameters at which the covariance formulas are exact", "why_tests_cant": "joins the copying transformation, the layout and the real-valued likelihood for all sizes", "anchors": ["src/mc_pmap.c: prob_line_variability4_pmap, transform_response_ratio"]}
{"id": "C76", "title": "Parameter moves are in detailed balance with the intended density", "statement": "Every move of a parameter vector that a proposal produces is undone by the same draws with the heavy-tailed number negated. With the acceptance rule of the sampler, the target density times the acceptance probability is the same in both directions. The target density is the Gaussian of the continuum fit in the variability parameters times the exponential of minus the penalties (below lag zero, inside the seasonal gap) of all components; for the continuum fit it is constant.", "quantifier": "all numbers of sets, lines and components, all layouts, both prior types of the lags, all parameter vectors inside their ranges, all draws and levels", "why_tests_cant": "an error in the acceptance ratio shifts the posterior silently; no single run shows it, and sampling would need to be compared with an unknown distribution", "anchors": ["src/dnest_line.c, dnest_mmap.c, dnest_vmap.c: perturb_*_prior0, perturb_*_prior1", "src/dnest_con.c: perturb_con", "src/dnest_pmap.c: perturb_pmap", "cdnest/dnest.c:748-752"]}
{"id": "C77", "title": "Level moves are in detailed balance with the level weights", "statement": "A proposal of a level leads back from the proposed level with the same draws, the Gaussian number negated and the other side drawn. The acceptance probability times the weight of a level is the same in both directions; the weight is the inverse prior mass of the level, times e^(j/lambda) while levels are made and times (tries+1)^(-beta) later.", "quantifier": "all numbers of levels, all counters, all prior masses, both phases of the run, all draws", "why_tests_cant": "wrong weights only bias the time spent per level; runs still finish", "anchors": ["cdnest/dnest.c:785-838"]}
{"id": "C78", "title": "The damping time can move in the virtual mode", "statement": "Every free parameter can be changed by the sampler; in particular the damping time in the virtual mode. (False: mean and spread of its prior are zero there, so the log of the acceptance ratio is NaN and every move is refused.)", "quantifier": "all present and proposed values, all draws, all thresholds", "why_tests_cant": "the run finishes and shows a constant parameter, which looks like a fixed one", "anchors": ["src/dnest_vmap.c:74-105", "src/dnest_line.c: perturb_line", "src/init.c:309-312", "src/mc_con.c:466-471"]}
{"id": "C79", "title": "Seasonal gap from the data", "statement": "For data over ny > 1 years the width of the seasonal gap is the mean of the ny-1 longest waiting times between neighbouring observations, its centre half a year; for data within one year it is the cadence. The gaps together fit into the span of the data. (False with fewer points than years, or without a continuum: the arrays are read outside of their bounds.)", "quantifier": "all lists of times, all numbers of years and sets", "why_tests_cant": "sorting and summing over all sizes; the failing case needs sparse data and reads one element before the array, which rarely crashes", "anchors": ["src/read.c: get_seasonal_gap, get_seasonal_gap_allset, cmpfunc"]}
{"id": "C80", "title": "Time spans, cadences and report of the end points", "statement": "tspan_max is the longest time between two observations of one curve, tmax the time of the latest observation, the default upper lag limit half of tspan_max; the cadences are the smallest mean waiting times of continua and lines. The root task reports both ends of every curve with data. (False without a continuum, as always in the virtual mode: the report reads outside of the arrays.)", "quantifier": "all numbers of sets, lines and points, empty curves included", "why_tests_cant": "extrema over all data; the bad read is of memory just outside an empty allocation and usually goes unnoticed", "anchors": ["src/read.c:956-1035"]}
{"id": "C81", "title": "Printed times of the reconstruction are distinct", "statement": "The number of digits chosen for printing times is at least six after the point and such that no two times of the grid of the data set with the longest curve are printed alike. (False for the grid of a set with much shorter curves, and undefined if the latest observation is at time zero, no curve has an extent or the number of grid points is zero.)", "quantifier": "all data, all numbers of grid points, all times up to ten times as far from zero as the latest observation", "why_tests_cant": "depends on magnitudes of times, spans and grid sizes together; equal printed times appear only for some combinations", "anchors": ["src/read.c:1011-1013", "src/mc_line.c:189, 346-379", "src/mc_con.c:102"]}
{"id": "C82", "title": "What the reconstruction writes", "statement": "For every data set, every curve is written at equally spaced times reaching beyond all data of the set; the value written is the mean, over all rows of the posterior sample, of the best linear unbiased prediction of that curve at that time given the data of the set and the parameters of the row, multiplied by the factor that restores the units of the data; the error written is the spread of the predictions or, if larger, the largest standard error of a single prediction, times the same factor; the trend file holds means and spreads of the least-squares trend coefficients.", "quantifier": "all data sets, numbers of sets and lines, samples, numbers of tasks and orders of reduction, response shapes, in the general, mixed and ratio modes", "why_tests_cant": "the output combines parameter layout, covariance matrices, inversion, distribution over tasks and averaging; a test sees plausible smooth curves whichever part is wrong", "anchors": ["src/mc_line.c:172-590, 1692-1852", "src/mc_mmap.c:235-820", "src/mc_pmap.c:91, 256-278"]}
{"id": "C83", "title": "What the reconstruction writes in the virtual mode", "statement": "In the virtual mode every curve of a set is written at the same equally spaced times, reaching a twentieth of the range beyond the data at either end. The driving curve of every row of the sample is the best linear unbiased prediction of a curve without trend, brought to mean 0 and standard deviation 0.1; written are the mean over the rows and the spread over the rows. A line is written as the mean of its best linear unbiased predictions with the spread or, if larger, the largest single standard error, in the units of the data. The trend of the driving curve is written as 0 without error, those of the lines as means and spreads of the least-squares coefficients. Numbers are written for all data.", "quantifier": "all sets of lines, samples, numbers of tasks and orders of reduction, response shapes", "why_tests_cant": "tests use modern dates and noisy data: the times go wrong only before time 0, and NaN is written only for data lying on their trends", "anchors": ["src/mc_vmap.c:611-1040", "src/mc_vmap.c:1382-1540", "src/mc_vmap.c:1771-1801"]}
{"id": "C84", "title": "The command line", "statement": "For every command line, options and file names may come in any order (unless POSIXLY_CORRECT is set), letters may share one word and the value of -l may be in the same or the next word. A flag is set exactly when its letter is given (-d also sets post-processing), the prior file is the last one given, and the first three words that are no options are the parameter file and the two option files; without any the program stops. A letter that is no option is reported. Words in front of an end mark -- count as well.", "quantifier": "all lists of arguments of less than 256 characters, with and without POSIXLY_CORRECT, whatever an earlier use of the parser left in its static variables", "why_tests_cant": "the parser moves the elements of argv step by step in a static state; the orders of options and words are unboundedly many", "anchors": ["src/mygetopt.c:164-477", "src/main.c:39-118"]}
{"id": "C85", "title": "What the sampler is told", "statement": "For every range of numbers of components, every driver stays inside its array of arguments, and each run of the sampler is told the restart and post-processing flags of the command line, its snapshot file, its own ending of the output names and its tag. Snapshots of different runs have different names, and none has the name that a restart reads. Every directory name that the parameter file may give is handled.", "quantifier": "all directory names, flags, ranges of numbers of components, contents of fresh memory and of the static variables of the parser", "why_tests_cant": "one run per test shows neither that runs of a range share files nor that the arrays suffice for all combinations of flags; short directory names never overflow", "anchors": ["src/mc_line.c:33-107", "src/mc_pmap.c:33-78", "src/mc_vmap.c:33-84", "src/mc_mmap.c:32-82", "src/mc_con.c:35-60", "cdnest/dnest.c:70-140, 1798-1801, 1903"]}
{"id": "C86", "title": "The likelihood of the continuum mode", "statement": "For every number of data sets, the log-likelihood of the continuum mode is the sum over the sets of the log-likelihood with the trend integrated out, each set with its own triple of parameters or all with the first one. The function with full matrices gives the same number, never its sign of failure, and its reconstruction is the same best unbiased prediction as the fast one.", "quantifier": "all numbers of sets and points, data, errors, parameters, trend orders and contents of the work arrays; proper times, as many different times as trend coefficients", "why_tests_cant": "two algorithms that share no step are compared for all data; tests with a few curves cannot show that signs of failure never appear or that stale work arrays never matter", "anchors": ["src/mc_con.c:182-277, 476-714", "src/init.c:315-330", "src/mathfun.c:132-150, 397-425"]}
{"id": "C87", "title": "What the continuum mode writes", "statement": "For every posterior sample, the continuum mode reconstructs every set with the means of the parameters over the sample. It writes three times as many rows as the curve has points, at equally spaced times that grow from 5% of the range before its begin to 5% after its end, each with the best unbiased prediction and its error in the units of the data, and the least-squares trend. Every task gets the means and standard deviations. Every setting of the range that the parameter file may give is handled.", "quantifier": "all samples, numbers of sets and tasks, data, extensions of the range, contents of the work arrays", "why_tests_cant": "the optimality of a prediction among all unbiased ones is no property of one output; ranges with nothing left are not among test inputs", "anchors": ["src/mc_con.c:24-180, 373-470"]}
{"id": "C88", "title": "Determinants from the factors with pivoting", "statement": "For every nonsingular matrix, det_mat gives the determinant, lndet_mat and lndet_mat3 the logarithm of its absolute value, and lndet_mat3 its sign. lndet_mat2 gives sign -1 exactly if some eigenvalue is negative.", "quantifier": "all sizes and nonsingular matrices, whatever rows the factorisation with partial pivoting exchanges", "why_tests_cant": "the sign depends on which rows were exchanged; diagonally dominant test matrices exchange none", "anchors": ["src/mathfun.c:314-425"]}
{"id": "C89", "title": "The files of the decomposed components hold the best predictions of each component and add up to the reconstruction", "statement": "For every number of data sets, lines and components, every posterior sample and every number of tasks, output_decompose_line_parallel (general and ratio modes) and its mixed-mode twin write one file per component. For every set, curve and grid time it prints, scaled back, the mean over the sample of the best linear unbiased prediction of that component's contribution to the line, where the component takes the share of the trend in proportion to its area (or none if areas may be negative), with spreads from the known-trend standard errors. Without range extensions, these files and pall.txt have the same times line by line, the continuum curves agree, and the values of the components sum to the line's value in pall.txt (less the printed trend if areas may be negative). With a range of reconstruction extended (trec_low_ext, trec_upp_ext) this fails: the component files keep the range of the data.", "quantifier": "all numbers of sets, lines, components, all data, posterior samples, tasks and orders of reduction, all contents of work space; LAPACK routines by contract", "why_tests_cant": "A run shows the curves for one data set and one sample; that every printed row is a best prediction and that the component files sum exactly to the total for every data set, sample and schedule is a statement about all of them.", "anchors": ["src/line_decomp.c:22-375", "src/line_decomp.c:667-870", "src/line_decomp_mmap.c:22-375", "src/line_decomp_mmap.c:380-570", "src/mc_line.c:121-124", "src/mc_mmap.c:91-94"]}
{"id": "C90", "title": "Every matrix access of the likelihoods and reconstructions stays inside its allocation", "statement": "For every collection of data sets for which the sizes can be computed without overflow, each of the twelve likelihood and reconstruction routines (continuum, lines, mixed, virtual; fast and dense; decomposition), together with the matrix routines and covariance routines it calls, touches only bytes inside the blocks allocated before, its own matrices have sizes that are ints, and arrays in use at the same time have no byte in common. The sizes can be computed whenever the points per curve times one plus the lines per set is at most 8000. It fails in four cases: a set with a curve of 7724 points and a line overflows int when memory is allocated; a reconstruction of lines with fewer points than trend coefficients, and of a continuum with fewer points than coefficients, writes past the end of PEmat1; a set without lines and without trend writes past the end of the workspace.", "quantifier": "all collections of data sets, all numbers of lines and points, all trend orders the reader accepts, all numbers of reconstructed points, every element of every array touched", "why_tests_cant": "a write past the end usually lands in padding or in an array not yet in use and changes nothing visible; which sizes collide depends on combinations of the largest sets with the smallest", "anchors": ["src/init.c:280-304", "src/read.c:930-954", "src/mathfun.c:20-300", "src/mathfun.c:506-630", "src/mathfun.c:795-1080", "src/mc_con.c:182-366", "src/mc_con.c:475-734", "src/mc_line.c:1692-1855", "src/mc_line.c:2192-2320", "src/mc_line.c:2431-2800", "src/mc_mmap.c:650-815", "src/mc_mmap.c:977-1306", "src/mc_vmap.c:430-605", "src/mc_vmap.c:1382-1687", "src/line_decomp.c:664-955"]}
{"id": "C91", "title": "The null mode reads every light curve of the data file as a set of its own", "statement": "In the mode without any transfer function (nmap), a data file whose header has a ':' on every set line and whose body has the announced rows is read as the list of its light curves in file order, each alone in a set of its own with its name and points, lines without points left out; the program stops if a curve is not sorted in time. It fails for a header with a set that has only a continuum: such a file, read by all other modes, makes the reader write through a null pointer before the body is looked at. It also keeps an empty continuum as a set without points.", "quantifier": "all data files with a well-formed header, all numbers of sets and lines, all rows", "why_tests_cant": "the branch is one of two readers in the same function, chosen by a flag, and fails only for header shapes that a test written for the other branch would not use", "anchors": ["src/read.c:669-785", "src/read.c:826-845", "src/allvars.c:29"]}
{"id": "C92", "title": "Parameters keep six decimals through the sample files, and no more is lost after the first writing", "statement": "Numbers in the text files are read as the double nearest to the value written. Particles written to the sample file and read by the post-processing come back in order, each parameter the double nearest to its rounding to six decimals, with its sign. The posterior sample file is its count and verbatim copies of the lines of the sample file for the indices drawn, and every routine that reads it gets exactly the doubles the post-processing had read. The file does not determine the parameters: a parameter of 4e-7 is written as 0.000000 and read as zero.", "quantifier": "all numbers of particles and parameters, all finite doubles, all lists of drawn indices, all numerals of fixed or exponent form", "why_tests_cant": "that rounding to text and back is stable needs every double, in particular those next to the middle of two decimals and those too large to have six decimals", "anchors": ["src/dnest_con.c:125-135", "src/dnest_con.c:200-216", "src/dnest_line.c:534-544", "src/dnest_line.c:801-817", "src/dnest_pmap.c:327-337", "src/dnest_vmap.c:368-378", "src/dnest_mmap.c:273-283", "cdnest/dnest.c:640-690", "cdnest/dnest.c:901", "cdnest/dnestpostprocess.c:376-420", "src/mc_line.c:209-233", "src/mc_con.c:400-426", "src/line_decomp.c:57-82"]}
{"id": "C93", "title": "Levels keep twelve digits and samples seven through the sampler's files", "statement": "The level file and the sample information file written by the sampler are read by the post-processing row by row: the log prior mass and the log likelihood of a level come back as the double nearest to their twelve digit decimal, the log likelihood of a sample as that of its seven digit decimal, tiebreakers with six decimals, level numbers and counts of the state file exactly. The order of likelihoods among levels and among samples is never inverted. A run whose log prior mass falls by a relative step larger than the digits gives files the compression of C21-C23 accepts, and a sample whose likelihood is apart from every level by more than the digits is placed between the same two levels as in the sampler. Without that distance it is not: a sample above a level can be read as below it.", "quantifier": "all numbers of levels and samples, all finite doubles, all 64-bit counts, files with further rows", "why_tests_cant": "needs all doubles through printing with rounding and reading, and the misplacement needs a likelihood within seven digits of a level", "anchors": ["cdnest/dnest.c:406", "cdnest/dnest.c:555-585", "cdnest/dnest.c:640-690", "cdnest/dnest.c:914", "cdnest/dnestpostprocess.c:76-160", "cdnest/dnestpostprocess.c:216-230", "cdnest/dnestpostprocess.c:434-447"]}
{"id": "C94", "title": "The parameter table lists every parameter under its name and loads back as a prior file", "statement": "The table written by the line, multi-map, photometric and virtual modes has exactly one line per parameter, in the order of the parameter vector: number, name, type, limits, fix flag and fixed value, for three variability parameters per block and, per line, an error and amplitude (or response ratio), centroid and width of every component. Given back as a prior file it sets all parameters: limits as the double nearest to their six decimals, flags as they were, fixed values with seven digits; the table of the loaded parameters is the same text. The limits are not kept in order: a range narrower than the decimals is read as empty.", "quantifier": "all numbers of sets, lines and components, all modes, all finite limits up to 1e60 and values, all parameters held before loading", "why_tests_cant": "the numbering is threaded through nested loops over unbounded numbers of sets, lines and components, and the values range over all doubles", "anchors": ["src/dnest_line.c:387-458", "src/dnest_pmap.c:208-281", "src/dnest_vmap.c:234-297", "src/dnest_mmap.c:174", "src/init.c:32-39", "src/init.c:520-583", "src/dnest_line.c:48-60"]}
{"id": "C95", "title": "The option files carry the sampler settings, and the particle look-up agrees with the sampler", "statement": "The option file written by the line, multi-map and virtual modes is accepted by the sampler whenever its settings are in range and gives it all nine settings: integers exactly, numbers as the double nearest to their value rounded to two decimals. The file of the continuum run gives 2 particles, 2000 saves, factors 5, 5 and 20, tolerance 0.1 and the default levels, length and push. Looking up the number of particles in a file finds the first value of that option, one if there is none, and it is the number the sampler uses when it is written in digits and no line other than a comment has a single word. Not kept: settings below 0.005 become zero; on single-word lines, empty files and numbers with an exponent the look-up and the sampler differ.", "quantifier": "all non-negative int settings and all finite numbers up to 1e60, all numbers of parameters and tasks, all plain option files", "why_tests_cant": "the settings range over all doubles and all option files, and the sizes over all counts of parameters and tasks", "anchors": ["src/init.c:412-496", "src/read.c:1337-1372", "src/mc_line.c:2345-2363", "src/mc_vmap.c:245-263", "src/mc_mmap.c:816-834", "src/mc_con.c:654-672", "cdnest/dnest.c:1228-1385"]}
{"id": "C96", "title": "Prior ranges follow from the settings and the data", "statement": "From the settings and the times of the data every parameter gets its prior range. With S the longest time covered by one curve and q the shortest mean waiting time: systematic errors 1 to 11, amplitudes 1e-5 to 10 (-10 to 10 with negative responses; from 0.1 for the first amplitude of the virtual mode; the given ratios for later components of the photometric mode); lags from max(LagLimitLow, -S/2) to min(LagLimitUpp, S/2), the lags of the string for prior 4; with priors 1 to 3 the components share this interval in equal, adjoining parts, in order; widths from the limit or q/10 to the limit or S/3, whichever is smaller, or as given by the string (the photometric mode lowers the first to at most 0.01 days and raises the others to at least 1 day); variability parameters five standard deviations about the continuum fit within fixed bounds. No range is empty if the limits leave room, and everything in the ranges obeys the limits. A width given that is not positive stops the program. Not so: a negative upper lag limit is replaced by S/2; accepted settings can turn a range upside down; with prior 3 widths ignore the limits; the photometric mode drops the lower width limit of the first component and can turn given ranges around; fixed lags of priors 2 and 3 are not cut to the range; a short span inverts the range of the time scale; the lag limits cannot be left out in the general mode.", "quantifier": "all data sets with sorted times, all settings, numbers of components and lines, modes and lag priors", "why_tests_cant": "limits, spans and waiting times range over all numbers, and the intervals over all numbers of components", "anchors": ["src/init.c:41-132", "src/dnest_line.c:297-384", "src/dnest_pmap.c:140-206", "src/dnest_vmap.c:148-231", "src/mc_line.c:76-80", "src/mc_mmap.c:68-72", "src/mc_vmap.c:72-76", "src/read.c:343-385", "src/read.c:956-1009", "src/mc_pmap.c:211-217"]}
{"id": "C97", "title": "What a run does, and in which order", "statement": "For every combination of options, mode, range of numbers of components and files left by earlier runs: the settings and data are read first; in the modes with a continuum the continuum is sampled and its variability fitted before anything is done with the lines, and each sampling of the lines comes straight after its parameter table, with ranges about that fit; every number of components asked for is taken exactly once and in increasing order, with table, posterior sample, summary and curves; the evidence file comes last and lists them all. With -p or -d nothing is sampled, with -r the lines are only continued and the continuum only post-processed, with -n only the tables are written for the lines, and components are separated exactly for -d and more than one component. A run comes to its end exactly if the directories, snapshots and samples it needs are there. -d always implies -p. Not so: -r in the null mode samples nothing; -d in the virtual mode separates nothing; -p and -d overwrite the parameter table with a variability fixed at 1, which a later run cannot load.", "quantifier": "all options, modes, ranges of numbers of components, files left behind and command lines", "why_tests_cant": "nine options, five modes, any range of numbers and any set of files left behind combine to unboundedly many runs", "anchors": ["src/main.c:39-150", "src/run.c:19-75", "src/mc_con.c:24-70", "src/mc_line.c:25-165", "src/mc_pmap.c:22-133", "src/mc_vmap.c:22-141", "src/mc_mmap.c:22-125", "src/dnest_line.c:192-227", "cdnest/dnest.c:157-188", "src/init.c:306-312", "docs/resume.rst", "docs/decomp.rst", "docs/para_prior.rst"]}
{"id": "C98", "title": "Memory is used only while it is allocated, and what is never freed", "statement": "In every run that comes to its end - every mode, option and setting, any numbers of data sets, lines, parameters, levels, samples and numbers of components, on the root task and the others, whatever the sampler does - no array is used or freed while it is not allocated, none is freed twice, and none is overwritten by a new one while it still holds memory, with exactly these blocks never given back: the table of the settings on the root task, the fitted variability and its error, the index of the continuum parameters, and one block for every data set each time the components are separated. Not so: that everything is given back; and that the sampling library can be called once with parameter ranges and then without, which frees the copy of the ranges twice.", "quantifier": "all modes, options, settings, sizes, tasks and histories of the sampler", "why_tests_cant": "allocation and release are spread over dozens of functions under different conditions; a mismatch shows only in one mode with one combination of options, and a leak or use after free often does not show at all", "anchors": ["src/init.c:281-409", "src/read.c:534-935", "src/mc_con.c:24-180", "src/mc_line.c:172-586", "src/mc_line.c:2345-2424", "src/mc_pmap.c:140-228", "src/mc_vmap.c:245-324", "src/mc_mmap.c:816-975", "src/line_decomp.c:118-375", "src/line_decomp_mmap.c:118-375", "cdnest/dnest.c:926-1211", "cdnest/dnestpostprocess.c:62-473"]}
{"id": "C99", "title": "The width of a proposed step comes from a set interval inside the prior range", "statement": "Whenever any mode proposes a new value of a parameter - for any number of tasks and particles, any likelihood values and random draws - the width is taken from the limits recorded for the level below the particle's, capped eleven below the top level (five levels lower in the fits other than the continuum and the ordered Gaussians), or from the prior range when there is no such level. The table is never read outside, the two ends lie inside the prior range in ascending order, and then the width in doubles is finite, not negative and at most that of the range, if at the start of the round a particle stood on that level or higher other than the bottom one, in particular if the particle has been on its level since then. Not so: always; a particle that passes levels nobody has visited reads DBL_MAX and -DBL_MAX, which gives the width minus infinity and makes the parameter NaN whatever is drawn (such a proposal is never accepted). Nor is the width always positive: it is zero while only one particle has been above the level. The integer codes by which the model compares doubles are in the order of the doubles.", "quantifier": "all reachable states of a run, all steps within a round, all modes and parameters, all doubles", "why_tests_cant": "the table is filled by moves between levels at random times and read by other moves; the unset rows need a jump over unvisited levels in the same round, and the resulting NaN is silently rejected", "anchors": ["src/dnest_con.c:160-193", "src/dnest_line.c:570-605", "src/dnest_line.c:648-683", "src/dnest_mmap.c:307-342", "src/dnest_mmap.c:385-420", "src/dnest_pmap.c:363-398", "src/dnest_vmap.c:402-437", "src/dnest_vmap.c:474-509", "cdnest/dnest.c:309-353", "cdnest/dnest.c:729-823", "cdnest/dnest.c:1043-1093", "cdnest/dnest.c:1509-1530"]}
{"id": "C100", "title": "Wrapping keeps a parameter in its range up to rounding, and draws lie in it", "statement": "In double arithmetic, for a value and a range of ordinary size (up to 2^500, wider than 2^-500), wrapping the value gives a finite number that is not below the lower end, exceeds the upper end by at most 2^-51 times the sizes of the ends, and differs from the value by a whole number of lengths of the range up to rounding. It does not exceed the upper end where the length of the range is itself a double. A value in the range stays where it is up to rounding unless it is within 2^-51 of the length from the upper end. A range of one number gives that number; a range turned around ends the program. A number drawn uniformly from the range, with a generator that returns at most 1 - 2^-32, lies between the two ends. Not so: the wrapped value never exceeds the upper end; and a value inside the range always stays - one next to the upper end is put at the lower end.", "quantifier": "all doubles of the stated size", "why_tests_cant": "the excess over the upper end is one unit in the last place and needs a value just below a lower end whose size differs from that of the upper one; random steps do not hit it", "anchors": ["cdnest/dnest.c:1509-1530", "cdnest/dnest.c:1551-1554", "cdnest/dnest.c:2084-2084", "src/dnest_con.c:114-114", "src/dnest_line.c:473-473", "src/dnest_line.c:508-509", "src/dnest_mmap.c:212-212", "src/dnest_pmap.c:295-295", "src/dnest_vmap.c:312-312"]}
{"id": "C101", "title": "Which parameter a step changes", "statement": "The loops that choose a parameter redraw until the drawn one is not fixed: they return the parameter of the first draw that hits a free one, never a fixed one. If a free parameter exists, the share of the sequences of draws after which the loop still goes on tends to zero with their length. Every free parameter is chosen by the same number of the sequences of draws of any given length. The fixings the program makes itself (systematic errors, gap, virtual mode, tied tops) always leave the damping time of every set free, so the loop ends when no prior file is given. Not so: that the parameters of the variability are drawn more often, as the comment says; and that the loop always ends - a prior file that fixes every parameter is accepted, and the loop then never ends.", "quantifier": "all layouts, settings, sequences of draws of the generator", "why_tests_cant": "that no sequence of draws ends the loop, and that the choice is even, are claims on all sequences; a test sees one", "anchors": ["src/dnest_con.c:51-64", "src/dnest_con.c:160-171", "src/dnest_line.c:75-205", "src/dnest_line.c:570-581", "src/dnest_line.c:648-659", "src/dnest_mmap.c:76-157", "src/dnest_mmap.c:307-318", "src/dnest_mmap.c:385-396", "src/dnest_pmap.c:75-101", "src/dnest_pmap.c:363-374", "src/dnest_vmap.c:74-111", "src/dnest_vmap.c:402-413", "src/dnest_vmap.c:474-485", "src/init.c:520-583"]}
{"id": "C102", "title": "Inverse and logarithm of the determinant from LAPACK's symmetric factorisation", "statement": "With the published algorithm behind LAPACK's dsytrf and dsytri (diagonal pivoting with the Bunch-Kaufman test), in exact arithmetic: a positive definite matrix is factored with single pivots only, all of them positive, and their product is the determinant; every symmetric matrix that has an inverse gets it. So inverse_symat, inverse_symat_lndet and inverse_symat_lndet_sign, which take the sum of the logarithms of the diagonal and ignore 2 x 2 blocks, return the inverse, the logarithm of the determinant, no failure and the sign 1 for every positive definite matrix, and all that the likelihoods and reconstructions assume of LAPACK is met. Not so: that the sign and the code tell a matrix that is not positive definite - one with a negative determinant is reported with sign 1, no failure and the logarithm of another number, and so is one with two negative eigenvalues.", "quantifier": "all sizes, all symmetric real matrices with an inverse", "why_tests_cant": "which pivots are taken depends on the entries; tests on a few covariance matrices cannot exclude that a 2 x 2 block appears for some parameters", "anchors": ["src/mathfun.c:187-283", "src/mc_line.c:2137-2162", "src/mc_line.c:2288-2294", "src/mc_mmap.c:1073-1079", "src/mc_pmap.c:379-385", "src/mc_vmap.c:377-401"]}
{"id": "C103", "title": "Likelihood under another origin of time, order of points, units and memory", "statement": "In exact arithmetic and in all four modes (general, ratio, virtual, mixed), writing the same data down differently changes the logarithm of the likelihood by a constant that does not depend on the parameters. Time may count from another origin for every curve and in another unit, each curve may have its own flux unit, the points of a curve may come in another order (the continuum still in order of time), any polynomial trend of the order fitted may be added to each curve, and the work arrays may hold anything; the parameters follow in the plain way: lags and widths in the new unit of time, lags moved by the difference of the origins, areas by the ratio of the flux units. The constant is the sum over curves of (points - nq) ln(flux factor) + nq (nq - 1)/2 ln(time factor). If the unit stays and all curves of a set move together the same parameters have exactly the same likelihood. In the general mode every parameter vector has such a counterpart if the sets share no parameters. In the virtual mode the strength of the driving curve and the zero of its time cannot be told from the data, so fixing sigma at 0.1 and the first lag of each set at 0 excludes no value of the likelihood if the sets share no parameters; the program fixes just these two, the systematic error of the absent continuum, and the systematic errors of the lines if they are not asked for. Not so: that the ranges of the parameters are free of units - the shortest damping time allowed is one unit of time whatever the unit.", "quantifier": "all data sets, sizes, trend orders, parameters, permutations, positive factors, real origins, contents of memory", "why_tests_cant": "a statement about all re-expressions of all data; a test compares a few runs, and rounding differs between them", "anchors": ["src/mc_line.c:2192-2321", "src/mc_mmap.c:977-1107", "src/mc_pmap.c:280-412", "src/mc_vmap.c:430-537", "src/dnest_vmap.c:82-96", "src/init.c:41-49", "src/dnest_vmap.c:73-111"]}
{"id": "C104", "title": "What the likelihoods are given, and flux units", "statement": "In exact arithmetic, after the data are read (every point with its time, no continuum in the virtual mode), the preparation succeeds exactly if every curve that is used has points, a positive mean flux and is not constant. Then each set holds every curve divided by one positive factor of its own: the times as read, fluxes and errors divided by the factor, the mean of the divided errors (0 for a curve without points), and the combined light curve holds the continuum and then the lines in order, each point in its place, and nothing else. The stored middle and half range are those of the divided fluxes. If the sets share no parameters, either all curves with points have mean 1, or, if the mean of some curve is below a hundredth of its half range, all have half range 1. If the sets share parameters all factors are 1. So giving fluxes and errors of each curve in a unit of its own changes nothing of what the likelihoods are given, nor whether the data are accepted, if the sets share no parameters. Not so if they share parameters: the unit of a line is seen by the likelihood.", "quantifier": "all numbers and sizes of sets, lines and points, all real fluxes and errors, all positive unit factors, both modes", "why_tests_cant": "a relation between two runs for all data and all units; an offset error in the combined curve shows only for some numbers of points", "anchors": ["src/read.c:893-928", "src/read.c:1040-1085", "src/read.c:1090-1322"]}
{"id": "C105", "title": "The likelihood functions kept beside the ones in use", "statement": "In exact arithmetic, the three earlier likelihood functions of the line mode (solving with LU factors, inverting through LU factors, symmetric factorisation) return one and the same number, the Gaussian log-likelihood of all data sets with the trends integrated out, for any number of lines in a set, none included, the times in any order and any places of the matrices in memory. Where the function in use is right (C74: at least one line per set, times in order) it returns the same number. The earlier function of the virtual mode is right for any number of lines; with at least two lines per set the function in use returns the same number. Not so otherwise: for a set without lines the function in use of the line mode takes the covariance matrix for its inverse, as the one of the virtual mode does for a set with one line, and the value differs from that of the earlier functions.", "quantifier": "all numbers and sizes of sets, lines and points, all times, fluxes, errors, parameters at which the closed forms are exact, all contents of the work arrays", "why_tests_cant": "agreement of four algorithms for all data; the deviation needs a set without lines, which the reader accepts", "anchors": ["src/mc_line.c:1862-2186", "src/mc_line.c:2192-2320", "src/mc_vmap.c:329-425", "src/mathfun.c:1000-1075", "src/read.c:570-605"]}
{"id": "C106", "title": "A set without lines in the line modes", "statement": "The reader accepts a set with a continuum and no lines, and the line modes then use the covariance matrix C of the data (divided by sigma^4) in the place of its inverse. In exact arithmetic the likelihood is minus half the chi-square with weights C/sigma^4 at the trend coefficients that minimise that chi-square, minus half ln det C, minus half ln det of the normal matrix with the same weights; the reconstructed continuum is the covariance with the data times these weights times the residuals, plus the trend; so in both evaluation orders, for any kernels and contents of the work arrays. That this is the best linear unbiased prediction is refuted: with two points at one time, errors 1 and 2 and fluxes 0 and 1 the curve has 2/3 where the best prediction is 1/5: the noisier point gets the larger weight.", "quantifier": "all numbers of points, times in order, fluxes, errors, parameters, trend degrees, kernels, contents of work arrays and routines of the linear algebra library meeting their purpose", "why_tests_cant": "which matrix takes the place of the inverse, for every data set; shipped data sets all have lines", "anchors": ["src/mathfun.c:1000-1075", "src/mc_line.c:2192-2320", "src/mc_line.c:1692-1852", "src/read.c:570-605"]}
{"id": "C107", "title": "Reconstructed light curves under another way of writing the data", "statement": "In exact arithmetic, let the data of all sets be written down differently: another unit and origin of time (each line its own origin), another flux unit for every curve, another order of the points, a trend added to every curve; and let the parameters be the same ones in the new units. Then for the general and the mixed model the reconstruction of a set gives, at every output time that is an old output time written in the new way, the old value plus the added trend in the new unit and the old error in the new unit; the fitted trends change likewise at all times. This holds whatever the work arrays contain and whatever other output times are asked for: with the same data and parameters, value and error at a time and the fitted trends do not depend on the number of output points, on the other times or on the memory.", "quantifier": "all numbers of sets, lines, points and output times, all changes of units, origins, order and trends, all parameters outside the degenerate widths, all contents of work arrays and routines of the linear algebra library meeting their purpose", "why_tests_cant": "relates two runs on differently written data or different grids for every change and every parameter vector", "anchors": ["src/mc_line.c:1692-1852", "src/mc_mmap.c:650-820", "src/mc_line.c:2530-2798"]}
{"id": "C108", "title": "Arguments of the exponentials in the covariance functions", "statement": "Whatever the parameters and times, the covariance functions of the general model take exponentials only of numbers up to ln 2 (up to 0 for responses other than Gaussians), so none of them overflows: their values, and the covariance blocks they fill, do not depend on what the exponential routine returns for larger arguments. The same holds for the covariances of the mixed model when no gamma scale lies inside the tolerance band of C64, with one exception: for a top-hat together with a gamma or exponential response the routines take the exponential of the half width of the top-hat over the damping time and multiply it with a small one. There an exponential that is right up to 709, the range of the doubles, does not suffice, and in doubles the covariance is NaN as soon as the half width is 710 damping times and the distance 746, for every library exponential that overflows and underflows there.", "quantifier": "all parameters, times, lines, numbers of components and shapes; all routines that agree with the exponential up to the bound; for the overflow all doubles", "why_tests_cant": "all widths, damping times and distances, including the extreme ones a sampler reaches rarely", "anchors": ["src/mc_line.c:2808-6187", "src/mc_mmap.c:1385-5320", "src/mc_mmap.c:2399-2402", "src/mc_mmap.c:2626-2629"]}
{"id": "C109", "title": "The earlier reconstructions", "statement": "The two reconstruction functions that the program keeps beside the one it calls return, for a set with any number of lines (none included), times in any order and any number of output times per curve, the trends fitted by least squares and at every output time the best linear unbiased prediction of the curve with its standard error. Their results are those of the function in use when the set has a line and the continuum is in order of time; without a line the function in use gives other values, and they are not the best prediction.", "quantifier": "all data sets, parameters, numbers of lines, components and output times, output times, contents of the memory and LAPACK routines doing what they are for", "why_tests_cant": "all data, parameters and output grids; and the functions are not called by the program", "anchors": ["src/mc_line.c:1373-1523", "src/mc_line.c:1530-1686"]}
{"id": "C110", "title": "The reconstruction written by one task", "statement": "The function that reconstructs with one task writes what the parallel one writes: with one task bit for bit, in real numbers for any number of tasks. It also writes, for every row of the posterior sample and every line, the best prediction and its error at every output time. Its variant gives every curve equally spaced times of its own, at most three per data point and at most the number asked for, reaching a twentieth of the length of the curve beyond both ends, with the mean best prediction, and its arrays are long enough. A sample file with too few numbers ends the program. It is not true that the program ends when an output file cannot be opened.", "quantifier": "all posterior samples, data sets, parameters, numbers of tasks and orders of combination, output options, contents of the memory and LAPACK routines doing what they are for", "why_tests_cant": "all samples, data and options; and the two functions are not called by the program", "anchors": ["src/mc_line.c:591-950", "src/mc_line.c:955-1264"]}
{"id": "C111", "title": "The virtual reconstruction and the decomposition written by one task", "statement": "The function that reconstructs in the virtual mode with one task writes the curves that the parallel one writes with any number of tasks: the means of the best predictions with their errors, the driving curve standardized row by row. The function that decomposes the lines with one task writes, for every component, the file that the parallel one writes, also in the ratio mode, where it transforms a copy of every row; a sample file with too few numbers ends it. It is not true that the virtual function writes the trends of the lines: trend.txt holds zeros for the driving curve, unset memory for the first line, and for every other line the mean trend of the line before it, in the units of the line itself.", "quantifier": "all posterior samples, data sets, parameters, numbers of tasks and orders of combination, output options, contents of the memory and LAPACK routines doing what they are for", "why_tests_cant": "all samples, data, options and contents of memory; and the two functions are not called by the program", "anchors": ["src/mc_vmap.c:1045-1375", "src/line_decomp.c:380-662", "src/mc_vmap.c:1456-1459"]}
{"id": "C112", "title": "The functions the sampler supplies itself", "statement": "When the caller gives no functions, every parameter drawn from the prior lies in its range; with a uniform or logarithmic prior it follows the density of that prior (it is at most t just when the uniform number is at most the integral of the density up to t). A step moves one parameter within its range, its logH is the logarithm of the ratio of the prior densities, and the opposite random number undoes it with the opposite logH; this also holds for steps whose width is that of a level's limits, which are never read out of bounds. A set of functions without likelihood ends the program; otherwise every missing function is filled in and those given are kept. A version is ordered before, with or after 0.1.0. It is not true that the option -l chooses level-dependent steps: the function is chosen before the option is read, by the option of the previous call, so that a call without -l after one with it reads freed memory. Nor are other prior codes consistent (drawn as uniform, moved as Gaussian), nor does the version comparison work for two numbers or for earlier patches.", "quantifier": "all lists of parameters with any priors and ranges, random numbers, levels and limits, sets of functions, sequences of calls, versions", "why_tests_cant": "all priors, ranges and random numbers; MICA2 hands over its own functions, so that these are not run by it", "anchors": ["cdnest/dnest.c:2065-2165", "cdnest/dnest.c:1653-1727", "cdnest/dnest.c:1629-1650", "cdnest/dnest.c:66-155"]}
{"id": "C113", "title": "The progress bar", "statement": "At the start and at every save up to number 21474836, the bar printed is fifty cells in brackets, the percentage rounded down, and the two numbers of saves, ended by a return to the start of the line while the run is incomplete and by a new line when it is complete; no buffer overflows and the unset flag of the bar does not matter. The cells filled are the fiftieths done, rounded down, or one more or less; up to 335544 saves they are exact; a later save never has fewer. It is not true that the bar of a finished run is always full (671089 saves leave one cell empty), that a run without limit (0 saves, which dnest_run provides for) works (the first bar divides by zero), or that every number of saves does (from save 21474837 on the percentage overflows).", "quantifier": "all numbers of saves asked for (1 to the largest int) and all saves up to 21474836, in single precision", "why_tests_cant": "all pairs of numbers; the float rounding that loses a cell and the overflow occur for single large numbers only", "anchors": ["cdnest/progress-bar.c:26-64", "cdnest/progress-bar.c:107-177", "cdnest/dnest.c:1154-1157", "cdnest/dnest.c:214-229", "cdnest/dnest.c:617-618"]}
{"id": "C114", "title": "What Python takes for the lags and responses of a line", "statement": "For a line of the first set, or of any set when all share one response, the interface's getters return from a row of the posterior sample exactly the centres (or the logarithms of the widths) of that line, and they refuse lines that do not exist. The columns the plots use are the places of the amplitude, centre and width of each component, for every set and option; the curve drawn in the general, virtual and mixed modes is at every lag the transfer function with the stored components, and in the ratio mode too for Gaussians and top-hats, and for the other shapes where all components have begun or none has. It is not true that the getters return the lags or widths of later sets with responses of their own (they return those of the set before), that they work in the photometric class (the first lag is the logarithm of the damping time), that gamma responses of the ratio mode are drawn right (the curve can be negative), or that the plot of the decomposition works with two sets (it stops) or draws the exponential ratio response (it multiplies the first by the delay).", "quantifier": "all numbers of sets, lines and components, both sharing options, all parameter values, all lags", "why_tests_cant": "all layouts and parameter values; the errors show only with a second set, in one class, or between the starts of two components", "anchors": ["python/pymica/pymica.pyx:268-339", "python/pymica/pymica.pyx:48", "python/pymica/pymica.pyx:567-573", "plotfig.py:135-258", "plotfig.py:423-426", "plotfig.py:457-465", "plotdecomp.py:59-182", "plotdecomp.py:215-229"]}
{"id": "C115", "title": "Prior strings written by the Python interface", "statement": "The limits of lags and widths given to the Python interface, one pair for each component, are the limits the program reads from the string made of them, to the decimals %f keeps (logarithms for the widths); fewer pairs than components are refused. One gap is read back as centre and half width. It is not true that gaps of two or more sets are: the string lacks the colon between one pair and the next, and the program ends with the complaint that there are not enough gap priors.", "quantifier": "all numbers of components and sets, all values, for every conversion of numbers that reads back what %f writes", "why_tests_cant": "all lengths and values; the gap string is right for one set", "anchors": ["python/pymica/pymica.pyx:618-660", "python/pymica/pymica.pyx:836-841", "src/read.c:1442-1485", "src/init.c:82-123", "src/mc_line.c:2372-2397"]}
{"id": "C116", "title": "Data files written by Python", "statement": "A data file written by create_data_file or by format_mica is read by the program as the sets that were given, each number as its text reads back; if the times of a curve are then out of order the program ends. format_mica leaves out lines given beyond the driving curves and refuses a driving curve without lines. It is not true that times keep their decimals: with %e every time from one to ten million becomes a whole day. It is not true that any number of lines can be written: with 127 lines the header line is longer than the program's buffer and the program ends.", "quantifier": "all numbers of sets, lines and rows, all values, with and without a given continuum; for every conversion of numbers that reads back what the format writes", "why_tests_cant": "all shapes and values of the data", "anchors": ["python/pymica/pymica.pyx:108-152", "genmockdata.py:165-259", "src/read.c: read_data"]}
{"id": "C117", "title": "postprocess.py agrees with the program's post-processing", "statement": "For levels whose likelihoods do not fall, and samples none of which stands at a level (same likelihood and tiebreaker at least as large), postprocess.py gives the same normalised prior and posterior weights, evidence and information as the C code, and the same prior masses wherever the C code has a number, whatever its random draws; its effective sample size is at most that of the C code and smaller by at most a factor exp(-n/1e300). It is not true for all samples: one that stands at a level is put above the level by Python and below it by the C code, and the weights differ.", "quantifier": "all levels and samples as in C21, all temperatures, all draws", "why_tests_cant": "all numbers of levels and samples and all values; equal numbers are rare in tests", "anchors": ["postprocess.py:15-26", "postprocess.py:79-80", "postprocess.py:108-226", "cdnest/dnestpostprocess.c:215-365"]}
{"id": "C118", "title": "Names of the columns of the posterior sample", "statement": "get_posterior_sample with a directory returns the sample as it is with one name per parameter, all names different, each name saying which parameter of which variability block or of which line and component it is, where the names are read from the parameter table the program writes. Without a directory the same holds for a sample of two or more rows. It is not true for a sample of a single row without a directory: np.atleast_1d leaves it one-dimensional and pandas refuses it.", "quantifier": "all modes, all numbers of data sets, lines and components, all samples", "why_tests_cant": "The names depend on the mode, on the numbers of sets, lines and components and on the widths of the table; a run only shows one of these.", "anchors": ["postprocess.py:297-334", "src/dnest_line.c:387-458", "src/dnest_pmap.c:208-281", "src/dnest_vmap.c:234-297"]}
{"id": "C119", "title": "Lags printed and drawn are the mean lags and peaks of the responses", "statement": "For every row of the posterior sample the lag that plotfig.py prints for a line is the mean lag of the response of that line, the integral of the lag times the response over the integral of the response: in the general, virtual and mixed model this is also the mean lag of the curve drawn beside it and the number in the centroid histogram, and in the ratio mode it is the mean lag of the response with the areas of the later components relative to the first. The lag in the histogram of a component is a place where the response of the component is greatest. The mark for the most probable row stands at its peak for Gaussians, top-hats and gammas. It is not true for exponentials: the width is taken from all rows, so one value per row is handed to axvline.", "quantifier": "all rows, all numbers of data sets, lines and components, all mixtures of the four shapes, no negative response", "why_tests_cant": "The integrals run over all lags and the claim is over all real parameters and mixtures of shapes; a plot only shows a grid for one sample.", "anchors": ["plotfig.py:260-269", "plotfig.py:487-528", "plotfig.py:724-757", "plotfig.py:783-837"]}
