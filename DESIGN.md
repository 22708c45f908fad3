# Formal model of MICA2: design

Source of truth: `/repo` (LiyrAstroph/MICA2, C), read as text. The model is in
Rocq/Coq 8.16.1 under `rocq/theories`. Nothing of `/repo` is compiled or run.

## Trusted base

* Coq's kernel (and `coqchk`).
* The axioms that `Print Assumptions` prints for each theorem; the list for every
  theorem named in `MANIFEST.json` is in the last section. All are axioms of
  Coq's standard library. mathcomp's and Coq's sealed constants (`Rdefinitions`,
  `bigop`, `perm`, ...) are definitions behind an opaque module signature, not
  assumptions.
* The reading of the C code: every definition in a `*Model.v` file cites the
  file and lines it models, and lists the simplifications made.
* The contracts assumed of external functions, listed below. They are hypotheses
  of the theorems that need them, and each is shown satisfiable by an instance.

### What is modelled

| code | model | kept | abstracted |
|------|-------|------|------------|
| `cdnest/dnest.c`, `dnestvars.*`: main loop on any number of tasks, MCMC moves, level assignment, bookkeeping, saving, renormalisation, replacement of lagging particles, limits | `CPrelude`, `SortModel`, `DnestModel`, `LogXModel` | array bounds (outcome `UB`), `exit`, unsigned wrap of counters, NaN comparisons, glibc's merge sort with the program's comparators | random numbers and likelihood values are arbitrary; log-likelihoods are NaN or an element of a total order |
| restart files, `dnest_restart`, `dnest_save_restart`, levels/sample files | `RestartModel` | bytes of every field, widths of the counters, append mode, buffered writes, crash at any point | little-endian; a short `fread` is `UB`; 32-bit counts |
| option and parameter files (`options_load`, `read_parset`) | `TagModel`, `ParsetModel` | characters, `fgets` limits, `sscanf("%s%s%s")`, tags used once, checks | `atof` arbitrary; numbers are rationals, infinities or NaN; file-name fields and the log of the options are not kept |
| `cdnest/dnestpostprocess.c` | `PostModel` | log-domain sums, interpolation of masses, weights, evidence, resampling | real numbers; draws are lists |
| `src/mathfun.c`: factorisation, solver, products, block inverse | `SemisepModel`, `PartModel` | loops, in-place updates, addresses for the block inverse | real numbers; LAPACK by contract |
| likelihoods of `src/mc_line.c`, `src/mc_con.c` (pmap, vmap, mmap share the algebra) | `LikeModel` | scaling, trend matrix, return codes, sign tests | real numbers |
| reconstruction of the curves for one sample, `src/mc_line.c`, `src/mc_con.c` (mmap has the same algebra) | `PredModel` | order of the products, factors alpha and beta, scaling by sigma, trends at the new times | real numbers; each work array its own array |
| covariance functions `Slc_*`, `Sll_*` and arrays, `src/mc_line.c` | `KernelModel` | branches, tolerance band `EPS`, lower-triangle loops | real numbers; `gsl_sf_log_erfc` by contract |
| covariance functions of mixed responses, `src/mc_mmap.c` | `MixModel` | sixteen pair routines, tables of function pointers, work array of the array routines, branches on `EPS` | real numbers; `gsl_sf_log_erfc` and `erfc` by contract; shape digits as natural numbers |
| decomposition into components for one sample, `src/line_decomp.c`, `src/line_decomp_mmap.c` | `DecompModel` | covariance functions of one component, two matrices, order of the products, parts of the trend | real numbers; copies between work arrays are values |
| files of the components, `src/line_decomp.c:22-375`, `src/line_decomp_mmap.c:22-375` | `DecOutModel` | loops over components, sets and samples, ratio rows read back, grid, sums, reduction, files | real numbers; the loops shared with the reconstruction are those of `OutModel` with no extensions and no trend rows |
| `set_covar_Pmat_data*`, `set_covar_Umat*`, `set_covar_Amat*` | `CovModel` | index arithmetic, which entries are written, function pointers | `alldata[k].n` is the number of points |
| one data set from parameters and data to likelihood and curves, `src/mc_line.c`, `src/mc_mmap.c` | `EndModel` | which matrix routine is called, where PCmat lies | composition of the models above; PCmat and workspace_inv are separate areas (separate `malloc`s) |
| lines without a continuum: matrices, likelihood, curves, normalization, `src/mc_vmap.c` | `VmapModel` | loops of the four matrix routines, trend rows, offset of the trend coefficients, error of the driving curve | real numbers; inversion as in `PartModel`; output of the samples not kept |
| likelihood over all data sets of the four modes with lines, `src/mc_line.c`, `mc_mmap.c`, `mc_vmap.c`, `mc_pmap.c` | `SetsModel` | loop over sets, index tables, early return, what each set finds in the work arrays, copy model_trans | real numbers; the offsets of the parts of `workspace` are not modelled, each part is an array |
| parameter vector, priors, perturbations: `src/dnest_line.c`, `dnest_con.c`, `dnest_pmap.c`, `dnest_vmap.c`, `dnest_mmap.c`, `mc_*.c: set_par_range*` | `ParamModel` | layout, order of steps, undefined accesses, exits | real numbers; random draws arbitrary in their ranges |
| acceptance of moves, level proposals, `cdnest/dnest.c:748-838`; `var_param_std` in the virtual mode | `BalanceModel`, `DampModel` | acceptance test, level proposal and its weight; NaN and infinities in IEEE binary64 for the virtual mode | real numbers in `BalanceModel`; `pow`, `exp` at NaN and infinity by C11 Annex F |
| quantities derived from the times, `src/read.c:956-1035`, `1374-1441` | `SpanModel` | loops, indices, qsort, conversions of infinities to `int` | real times |
| what the likelihoods are given: end of `read_data`, `cal_mean_error`, `scale_con_line` | `FeedModel` | memcpy into arrays not set, offsets | real numbers; broadcast of the data |
| earlier likelihoods: `prob_line_variability`, `2`, `3`, `prob_line_variability3_vmap` | `OldModel` | sums over sets, early return of -DBL_MAX as None | real numbers; LAPACK routines by specification; Tmat2 taken large enough |
| output of the reconstruction, `src/mc_line.c:172-590`, `mc_mmap.c:235-648` | `OutModel` | grid, one reconstruction per row and set with its parameters (transformed in place in the ratio mode), tasks, sums, scaling | real numbers; contents of the work arrays a function of row and set; reading of the sample file and digits written not modelled here |
| output of the reconstruction in the virtual mode, `src/mc_vmap.c:611-1040` | `VoutModel` | grid with its starting values DBL_MAX and 0, one reconstruction per row and set, normalization of the driving curve, tasks, sums, scaling, its own rule for the error | real numbers; a division by zero makes the output of the set NaN as a whole; contents of the work arrays a function of row and set; reading of the sample file and digits written not modelled here |
| command line and arguments of the sampler: `src/mygetopt.c`, `src/main.c:39-118`, `cdnest/dnest.c:70-140`, beginnings of the five drivers | `GetoptModel` | argv permuted in place, static variables, string copies into arrays of 256, 156 and 200 characters | `my_optopt` and console output left out; long options (unused) left out |
| continuum mode over all sets, `src/mc_con.c`; determinants and inverses by dgetrf, `src/mathfun.c:132-150, 314-425` | `ConModel` | loop over sets, index table, both the fast and the dense functions, post-processing, broadcasts, grid, rows; factors and pivots of dgetrf, exits | real numbers; formatting and `para_names` files not modelled here; the offsets of the parts of `workspace` are C37 |
| data files, prior strings, prior files: `src/read.c`, `src/init.c`, `src/mc_pmap.c` | `ScanModel` | characters, cursors, loops with fuel | `%lf` by contract (met by `TextModel`, C92) |
| the reader in the `nmap` mode: `src/read.c:669-845` | `NmapModel` | characters and rows as in `ScanModel`; a store through the null pointer is undefined | |
| number formats of `printf` and `scanf` | `TextModel` | characters and binary64 (Flocq); exact decimal rounding, ties to even as in glibc | `%lf`: decimal numerals only (no hexadecimal, nan, inf), fields not cut at a width |
| sample files: `print_particle_*`, `read_particle_*`, `cdnest/dnestpostprocess.c:376-420` and the readers of the posterior sample | `SampTextModel` | text to lists of doubles | opening and closing of files |
| level, sample information and state files: `cdnest/dnest.c:555-585, 640-690`, `cdnest/dnestpostprocess.c:76-160` | `LevTextModel` | text to lists of doubles | opening and closing of files |
| parameter tables: `print_para_names_line`, `_pmap`, `_vmap` | `TabModel` | parameter arrays to text, with bounds | opening and closing of the file |
| option files: `write_options_line`, `write_options_con`, `get_num_particles` | `OptModel` | texts, atof and atoi | opening and closing of the file, broadcast of the name |
| prior ranges: `init` (ranges and width priors), `type_lag_prior_pr` | `RangeModel` | joined to spans, cadences and range routines | logarithms of numbers that are not positive, infinite settings |
| steps of a run: `main` after the options, `begin_run`, `mc_con`, `mc_line`, `mc_pmap`, `mc_vmap`, `mc_mmap`, flow of `dnest` | `FlowModel` | trace of steps, files left behind as parameters | what the steps do (other models), output to the screen, tasks other than the root when it exits |
| memory of a run: `read_data`, `init`, `allocate_memory`, `free_memory`, drivers, reconstruction, decomposition, `setup`, `finalise`, `dnest_run`, `postprocess` | `HeapModel` | trace of malloc, free and access for every pointer; branches and numbers of turns as oracles | sizes and contents (other models), runs that exit early, files, the test functions |
| choice of the step width in `perturb_con`, `perturb_line_prior0/1`, `perturb_mmap_prior0/1`, `perturb_pmap`, `perturb_vmap_prior0/1` | `StepModel` | level rule and table look-up exactly; the move and `dnest_wrap` in binary64 (Flocq) | which parameter is drawn, the distribution of dnest_randh (other models) |
| the uniform draws of `from_prior_*` and `dnest_from_prior` | `WrapModel` | the arithmetic in binary64 (Flocq), for any value of dnest_rand up to 1 - 2^-32 | the generator itself (GSL) |
| reference LAPACK dsytf2 and dsytri, called from `inverse_symat*` | `BkModel` | the published algorithm (not in /repo) over real numbers | rounding, the blocked variant, the test for NaN |
| `scale_con_line`, `normalization.txt`, reconstruction times, distribution of the posterior sample, means and deviations | `RecModel` | slices by task, bounds, order of the reduction | reals, and IEEE binary64 for the refutations; the reconstruction of one sample is a parameter (it is `PredModel`) |
| accesses to matrices and work arrays: `init.c`, `read.c`, the likelihood, reconstruction, covariance and matrix routines | `MemModel` | blocks, byte offsets, sets of elements touched by every call, passes of the partitioned inverse, int overflow of the sizes | values left out; loops over a triangle count as the whole block; data arrays and parameter vectors not among the blocks; the factors `fq_all` of the decomposition left out; calls of LAPACK and BLAS touch exactly the matrices they are given |
| work arrays: `read.c`, `init.c`, all carving routines in use | `WorkModel` | byte offsets, lengths, steps of use | superseded, uncalled variants left out |
| small routines (`version.c`, `system.c`, argmax of evidences, ratios, moments) | `SmallModel` | loops, NaN, int conversions (binary64 via Flocq for C55) | |
| Python interface, `python/pymica/pymica.pyx`, transfer functions of `plotfig.py`, `plotdecomp.py`, data files of `genmockdata.py` | `PyModel`, `PyDataModel`, `PyLagModel` | lags and responses taken for a line, curves drawn, lags printed and drawn, strings of priors and gaps, data files written | Python exceptions are `Exit`; numbers are printed by the contracts of `TextModel`; the rest of these files not modelled |
| `postprocess.py` | `PyPostModel`, `PyNamesModel` | post-processing from the arrays to weights and evidence; names of the columns | real numbers; files with one row only where stated; plots not modelled |

### What is not modelled

* Floating-point rounding, except where stated (C48 refutations with
  `Coq.Floats.SpecFloat`, C55 with Flocq). Where the code only *compares* doubles
  a double is NaN or an element of a total order; where it computes, a real.
* `CMakeLists.txt:8` sets `-ffast-math`. Comparisons with NaN and infinities and the
  association of sums are taken as C and IEEE 754 define them for the code as
  written, not as that flag allows the compiler to change them.
* GSL's generators, wall-clock time, console output, the rest of the Python files, plotting.
* `MPI_*`: by contract (scatter by rank, gather in rank order, reduction in any
  order, broadcast).

### Contracts of external functions

* `LAPACKE_dsytrf`/`dsytri`: factor and invert a symmetric nonsingular matrix;
  diagonal product of the factor is the determinant when no 2x2 pivot is used
  (`dsytr_spec`; instance `ref_dsytrf`, `ref_dsytri`). The published algorithm meets this,
  including that positive definite matrices get no 2x2 pivot (`bk_contract`, C102).
* `LAPACKE_dgetrf`/`dgetrs`: solution of a nonsingular system for several right-hand
  sides (`dgesol_spec`; instance `ref_dgesol`).
* `LAPACKE_dgetrf`/`dgetri`: inverse of a nonsingular matrix (`dget_spec`;
  instance `ref_dget`).
* `LAPACKE_dgetrf` with its factors: P A = L U with row exchanges and multipliers of at
  most 1, success for every nonsingular matrix (`lu_factors`, `lu_spec`; existence
  `lu_exists`, instance `some_lu`, `some_inv`).
* `dtrtri`, `dlauum`: inverse of a triangular matrix; product with its transpose
  (`dtrtri_spec`, `dlauum_spec`).
* `cblas_dgemm`, `dgemv`: matrix products, written as sums.
* `gsl_sf_log_erfc`: its exponential is the complementary error function
  (`log_erfc_correct`).
* `erfc`: the complementary error function (`erfc_correct`; instance `erfc_exists`).
* `sscanf("%lf")`: reads a maximal numeral after blanks (contract in `ScanModel`; `TextProofs.scan_lf_ok` shows it
  for the reader of binary64 in `TextModel`, C92).
* `qsort`: glibc's merge sort (C15, C16).

## Conventions

* C array accesses go through bounded functions; an access out of bounds is the
  outcome `UB`, `exit()` is `Exit`, exhausted fuel is `Stuck`. Safety theorems
  say these do not occur.
* Unsigned wrap-around is written explicitly (`mod 2^32`) where it can occur.
* External calls are Section variables, universally quantified afterwards.
* File roles: `*Model.v` definitions only; `*Proofs*.v`, `*Facts*.v`, `*Calc.v`
  lemmas; `*Spec.v` specifications; `Prop*.v` the theorems, each with its small
  specification, `Print Assumptions` and an `Example` that meets the hypotheses.
* A claim that is false of the faithful model is refuted by a theorem ending in
  `_refuted`, and what does hold is proved beside it. `_partial` marks a theorem
  that covers part of the English statement only.
* `seeded/LOG.jsonl`: realistic bugs put into a scratch copy of the model, and the
  theorems that then fail.

## Properties: what is modelled, how proved

| id | title | modelled | method | remark |
|----|-------|----------|--------|--------|
| C01 | Particles stay inside their level | `dnest_mcmc_run`, `update_particle`, `update_level_assignment`, `kill_lagging_particles`, `do_bookkeeping`, rounds | inductive invariant over all runs | Invariant over every reachable state of the multi-task run; C00 adds that no out-of-bounds access occurs. |
| C02 | Level thresholds are permanent and ordered | same | invariant: pool entries above the top level; prefix preservation | Permanence and order proved; strictness proved for distinct recorded values and refuted without that hypothesis. |
| C03 | Level counters are consistent | same, with `renormalise_visits` | per-round invariant | All level records of all tasks in every reachable state, hence everything that is written from them. |
| C04 | No lost or double-counted work between tasks | combine step of `dnest_run` | induction over steps and tasks | Per-round conservation and total number of tries while levels are being built. |
| C05 | Estimated prior masses decrease | `recalculate_log_X` over R | induction over levels | Over real numbers, for the level table of every reachable state. |
| C06 | The likelihood pool never overflows | pool sizes | arithmetic invariant; refutation for small compression | No overflow for compression >= 2; overflow witness for compression 1.1. |
| C07 | Number of levels is bounded | `enough_levels`, level creation | invariant |  |
| C08 | Exactly the requested number of samples is saved | save loop with 32/64-bit unsigned arithmetic | loop invariant; wrap refuted | Exact count at termination and at any time; witness that 32-bit wrap-around breaks the count for extreme settings. |
| C09 | Sample row and information row describe the same particle | `save_particle` | invariant on written rows |  |
| C10 | All tasks agree on the level table and on when level building ends | root and worker level tables | invariant |  |
| C11 | Replacing a lagging particle keeps the ensemble consistent | `kill_lagging_particles` | case analysis |  |
| C12 | Level-dependent parameter limits are nested | limits update and merge | invariant over min/max | Includes that every recorded value is contained. |
| C13 | Integer wrap-around of level proposals | `mod_int` with truncating `%` | arithmetic |  |
| C14 | Periodic wrap of a parameter | `mod`, `dnest_wrap`, `wrap_limit` over R | floor arithmetic | Over real numbers. |
| C15 | Sorting of likelihood pools | merge sort parametrised by a comparator | permutation and sortedness by induction | Assumes glibc's merge sort; callbacks are shown to be inconsistent orderings. |
| C16 | New level is the right quantile | level creation on a sorted pool | list reasoning |  |
| C17 | Restart snapshot round trip | byte-level writer and reader | round trip by induction | Byte-level writer and reader; task-by-task restoration; the step counter is proved lossy above 2^32. |
| C18 | Restart with fewer levels is safe | reader with smaller limit, reassignment loops | round trip, loop invariant; refutations | Reader with fewer levels, reassignment loop, invariants through any sequence of restarts; witnesses for minus infinity and NaN log-likelihoods. |
| C19 | Stop, restart and crash: rows and counters | append-mode files, buffered writes, crash | history model; refutation | Row counts over stop/continue; exact excess after a crash and a crash witness with 11 instead of 10 rows. |
| C20 | Option file semantics | tag parser | fold over lines; refutations | For every file without NUL and without lines over 198 characters, every number conversion, line order irrelevant. Refuted outside: a comment line over 199 characters stops the program; accepted options may have zero steps per round; the interval guarantee needs tasks*steps < 2^32 (unsigned wrap). |
| C21 | Posterior weights and evidence | post-processing | real analysis on finite sums | Over the real numbers (no rounding). Weights sum to one, evidence bounds, information >= 0, weights file relative to the maximum. |
| C22 | Effective sample size | post-processing | real analysis on finite sums | Both bounds, both equality cases, and the truncated number of posterior samples. |
| C23 | Prior mass assigned to samples within a level | post-processing | real analysis on finite sums | Masses strictly between level masses and ordered by likelihood; lone sample has no mass; weights are neighbour differences. |
| C24 | Posterior sample is drawn from the sample | post-processing | real analysis on finite sums | For all lists of draws; acceptance iff u < w/wmax, so proportional to the weight when draws are uniform. |
| C25 | Log-domain helpers | post-processing | real analysis on finite sums | Exactness, permutation and shift invariance, and exponentials only of non-positive numbers. |
| C26 | Fast covariance solver solves the covariance system | factorisation and solver | induction on n; determinants through mathcomp | Vector, matrix, transposed-matrix and inverse routines, real arithmetic. For the inverse, LAPACK dtrtri/dlauum are assumed to meet their documented contracts (shown satisfiable). |
| C27 | Fast log-determinant | factorisation and solver | induction on n; determinants through mathcomp | lndet returned by inverse_semiseparable, and the sum of log D, equal ln of the determinant (mathcomp \det). LAPACK contracts as for C26. |
| C28 | Continuum covariance is positive definite | factorisation and solver | induction on n; determinants through mathcomp | Pivots positive and quadratic form positive for ordered times where equal neighbouring times carry noise; the condition is needed (C28_ties_without_error_refuted). |
| C29 | Partitioned inverse | block inverse on a memory | matrix algebra, loop invariants | One step (three routines) and iterated (both variants) over a memory with addresses, any block sizes; LAPACK dsytrf/dsytri under a contract shown satisfiable; the log-determinant for positive definite matrices (the pivot rule never takes a 2x2 block there: C29_no_2x2_pivot). With no line the routine leaves the matrix unchanged: C29_no_line_refuted. |
| C30 | Likelihood is the trend-marginalised Gaussian likelihood | likelihood | matrix algebra, polynomial roots for the rank | Line likelihood (scaled matrices, partitioned inverse) and continuum likelihood, any number of lines, trend order and data: equals the trend-marginalised likelihood, q minimises chi-square, invariant under trends. Full column rank is derived from enough different times per curve. The sign/return-code tests never fire for a positive definite matrix. LAPACK under contracts shown satisfiable; real arithmetic. The sum over data sets is C30_sum_of_sets. |
| C31 | Top-hat responses: covariance formulas | covariance functions | integrals with Coquelicot | all four scalar loops with the top-hat bodies, over the reals; covariances specified as improper integrals of the transfer functions against the damped random walk; any number of components, any decoding of the amplitude (exp or identity) |
| C32 | Exponential responses: covariance formulas | covariance functions | integrals with Coquelicot | exact when every width is clear of the tolerance band or equal to the damping time; for all parameters the value is within 2 EPS (continuum-line) or 4 EPS (line-line) times the sum of amplitudes of the true covariance; inside the band exactness is refuted by a witness |
| C33 | Gamma responses: covariance formulas | covariance functions | integrals with Coquelicot | as C32 with 6 EPS and 50 EPS |
| C34 | Gaussian responses: covariance formulas | covariance functions | integrals with Coquelicot | gsl_sf_log_erfc enters through the contract log_erfc_correct (its exponential is the complementary error function integral), shown satisfiable |
| C35 | Array and scalar covariance routines agree | array routines | entrywise equality, symmetry | array routines equal scalar routines entry by entry for all four types (one-line blocks: lower triangle, rest untouched); symmetry for all parameters for gaussian and top-hat, and for exponential and gamma outside the excluded case; in the excluded case symmetry is refuted by a witness |
| C36 | The assembled covariance matrix is complete and symmetric | matrix assembly loops | index reasoning | Assembly of the data, data-reconstruction and reconstruction covariance matrices for every number of lines and points, every transfer-function type and both amplitude encodings; entries are the integrals of C31-C34 (exp and gamma widths clear of the tolerance band or equal to the damping time); alldata[k].n is taken to be the number of points. |
| C37 | Work arrays never overlap or overflow | work-array layout in bytes | arithmetic over all shapes | All routines in use that carve the work arrays; every piece in bounds in bytes, pieces in use at the same time disjoint, for every list of data sets. Refuted: 4 bytes over the end in reconstruction of a single set without lines and without trend; the reused matrix of reconstruct_line_from_varmodel3 when curves have fewer points than trend terms. Superseded variants of the likelihood that are never called are not modelled. |
| C38 | Parameter layout | parameter index tables | arithmetic, induction | Index table, ranges and centre recognition for every shape; own, shared and variability slots. |
| C39 | Parameters respect their prior ranges | prior draws and perturbations | invariants over any number of perturbations; refutations | All four line modes and the continuum fit, any number of perturbations; hypotheses shown to hold for the program's own set-up (C39_own_conditions). The failure with loaded unequal centre ranges is proved (refuted). |
| C40 | Component order is preserved with prior type 0 | prior draws and perturbations | invariants over any number of perturbations; refutations | Line and velocity-map modes; violation with the positivity option on is proved (refuted). |
| C41 | Positivity option at initialisation | prior draws and perturbations | invariants over any number of perturbations; refutations | The expected property is false in the code: refutations of positivity and of the range; what is imposed instead is C41_relation_imposed. |
| C42 | Data file header parsing | header and data reader | induction on characters | Both header passes and all data rows, character by character, for every header of decimal fields with blanks and every body of rows; any %lf meeting a stated contract (satisfied by an instance). General theorem says what a zero entry does; witness that it breaks reading. The nmap branch is not covered here. |
| C43 | Gap prior string | prior strings | induction on words; refutations | The statement's failure is proved: set i gets numbers i and i+1 (C43_actual), the intended reading is refuted (C43_refuted) and holds for the first set (C43_first_set). |
| C44 | Response-ratio prior string | prior strings | induction on words; refutations | One pair gives the pair to all components; two or more pairs are undefined behaviour for every count (C44_pairs); odd counts stop. The intended reading is refuted. |
| C45 | Lag and width prior strings | prior strings | induction on words; refutations | All strings of numerals and all component counts; the width version also takes logs and stops on non-positive numbers. |
| C46 | Parameter file semantics | parameter file | fold over lines; refutations | Acceptance is characterised exactly (acceptable <-> Ok). Exceptions refuted: FlagNegativeResp, TypeTF unchecked; old/new component names are order dependent; in mmap mode the lag prior checks use the wrong number of components. |
| C47 | Normalisation is undone on output | scaling, normalization.txt, output | algebra, refutations | Acceptance characterised; factors positive, undone on output, all 1 / all averages / all half ranges; normalization.txt rows exact outside velocity-map mode; in velocity-map mode the continuum row is an uninitialised or foreign value (refuted). |
| C48 | Reconstruction does not depend on the number of cores | distribution and sums | induction over tasks; binary64 witnesses | Distribution, sums, reduction in any order, output, for any number of rows and tasks over the reals; in IEEE doubles (exact bit-level arithmetic) both the sign of the variance and the independence of the last bits are refuted by witnesses. |
| C49 | Prior file loading terminates and respects comments | prior file reader | loop with fuel; refutation for every fuel | Files of record lines: last record per parameter wins, others unchanged. Comment or blank line: no fuel suffices (C49_comment_loops), so the full claim is refuted; also an unterminated last line is ignored. |
| C50 | Best number of components | argmax loop with NaN | loop invariant | First largest evidence whenever some evidence exceeds -DBL_MAX; otherwise the first number. The NaN clause is refuted for [NaN; -infinity] (C50_refuted). |
| C51 | Version comparison | version check | case analysis; refutation | Any library version. Exact result (C51_actual), right except for a lower patch (C51_otherwise), witness of failure (C51_refuted). |
| C52 | Posterior mean and spread of parameters | moments | algebra | Over the reals, any number of rows >= 1 and columns; mean within range; sum of squares relation and single-row case. |
| C53 | Response-ratio transformation | ratio conversion on a memory | loop invariant | Memory with addresses, any value type and addition; both versions, agreement, and untouched input and surroundings. |
| C54 | Loaded prior ranges are intersected with the continuum fit | range intersection | case analysis | Over the reals, all sets; the result is characterised as a set intersection, stopping exactly when it is empty. |
| C55 | Elapsed time | `get_hms` in binary64 | Flocq | In IEEE binary64 with round-to-nearest-even (Flocq): exact for every double from 0 up to 596524 hours; int overflow from there on. |
| C56 | Gap check uses the data set of the changed parameter | gap check in perturbations | index reasoning; refutation | Proved for own and tied transfer functions; refuted for shared ones. |
| C57 | Tied transfer functions need enough lines in the first set | tied transfer functions | undefined access for every such shape | Refutation: undefined behaviour for every such shape. |
| C58 | Virtual-map mode with lag prior 0 | virtual-map perturbation | construction of draws | Refutation: for every such configuration there are draws that make the next perturbation exit. |
| C59 | The reconstruction covers the data | reconstruction times | algebra; refutations | Grid equally spaced and covering all data, repeated times and any extensions of the range allowed that leave some time; refuted for lines without data (undefined behaviour for all such sets) and for one point. |
| C60 | The reconstruction is the best linear unbiased prediction | reconstruction of the light curves (products, inverses, trends) | best linear unbiased prediction algebra; non-negativity of the exponential kernel by sorting and induction | Real arithmetic. For lines the joint covariance of the true value and the data is a hypothesis (the entries are C36); for the continuum alone it is proved. BLAS/LAPACK contracts as hypotheses, shown satisfiable. |
| C61 | Mixed responses: covariance of the continuum with a line | covariance functions of the mixed model, continuum against line | table of shapes; the integral of each shape from C31-C34, sum over components | all shape strings; real arithmetic; contract of log_erfc |
| C62 | Mixed responses: covariance of two lines | sixteen routines for pairs of shapes, tables of function pointers, loops over components | moments of the normal density and first-order equations for the averages; each closed formula is the bounded solution; sums over pairs | all sixteen pairs of shapes; real arithmetic; contracts of log_erfc and erfc |
| C63 | Mixed responses: arrays and symmetry | array routines with their work array | loop invariants for the fill and the addition; tables compared entry by entry | for any log_erfc and erfc |
| C64 | Mixed responses inside the tolerance band | special branch of the routine for Gaussian and gamma responses | signs of the truncated moments bound the formula from above; non-negativity of the true double integral | the property states a failure; the theorem exhibits the parameters |
| C65 | Decomposition: covariances of one component | covariance functions of one component, the two matrices of the decomposition | closed formulas compared with those of the whole line; sums over components; writes of the matrix loops as in C36; witness with bounds on exp for the failure | values proved for all parameters outside the tolerance; the tolerance compares a rate with a pure number, failure at long time scales proved |
| C66 | Decomposition: the curves of the components | decompose_single_component and its mixed version: products, solutions, trends, errors | best linear unbiased prediction algebra as in C60; linearity in the row of the target; witness with one continuum and one line point for the error | curves proved; refutation: the printed errors are not those of the printed prediction |
| C67 | Decomposition of mixed responses: covariances of one component | covariance functions of one component in the mixed model, its matrices | tables of shapes as in C61 and C62; writes of the matrix loops; witness for the variance | covariances with the data proved; refutation for the variance when the shape differs from type_tf |
| C68 | The covariance matrices are positive definite | the covariances as integrals; the matrices of CovModel with the selected routines | double integrals approximated by finite sums of kernel values, whose quadratic form is non-negative; a Schwarz argument gives symmetry; C36 and C61-C63 link the program | Spec-level theorems for all responses of the four shapes; program matrices under the exactness conditions of C31-C34, C61, C62. |
| C69 | Likelihood of a data set, from the parameters to the value | EndModel: matrix filled by the selected routines, then LikeModel | C36/C63 give the matrix, C68 its positive definiteness, C30 the value | Composition of C36/C63, C68 and C30; LAPACK by contract. |
| C70 | Reconstructed light curves, from the parameters to the curves | EndModel: three matrices filled, then PredModel | C36/C63 give the matrices, C68 positive definiteness and joint covariance, C60 the optimality | Composition of C36/C63, C68 and C60; LAPACK by contract. |
| C71 | Likelihood of lines without a continuum | VmapModel: matrix of the lines, inversion, likelihood | the loops write what CovModel writes for a continuum without points; then as C69; witness with one line | Two or more lines: C71_likelihood, nothing assumed about the matrices. One line: C71_one_line_refuted gives the wrong value. Real arithmetic, LAPACK by contract. |
| C72 | Reconstructed curves for lines without a continuum | VmapModel: three matrices, trend rows, curves and errors | matrices as in C71, algebra of C60 for the lines, of C66 for the driving curve; witness for the error | C72_light_curves states value and error of lines and driving curve; that the driving-curve error is too small against the best unbiased prediction is C72_error_refuted. |
| C73 | Normalization of the reconstructed driving curve | light_curve_normalize | loop invariants; division by zero iff the sum of squares vanishes | Real arithmetic. The program does not test for a constant curve; the model returns None there. |
| C74 | Likelihood of all data sets from the parameter vector | SetsModel: prob_line_variability4, _mmap, 4_vmap with the index tables of ParamModel | C69 and C71 for each set, layout of C38, sum over the sets by induction | general, mixed and virtual mode; under the exactness conditions of C31-C35 on the parameters |
| C75 | Likelihood in the ratio mode | prob_line_variability4_pmap with transform_response_ratio | C53 for the copy, then as C74 | positive responses only, as the mode requires |
| C76 | Parameter moves are in detailed balance with the intended density | ParamModel perturb routines, acceptance of BalanceModel | inverse of the wrapped step, change of the log density slot by slot, min(0,.) symmetric | Detailed balance in all four modes with lines and in the continuum fit; in the virtual mode for the line parameters (C78 for the others). Real arithmetic. Draws are compared pairwise: the move back uses the negated heavy-tailed draw, whose distribution is symmetric. |
| C77 | Level moves are in detailed balance with the level weights | BalanceModel: level proposal and log of the acceptance | mod arithmetic for the way back, exponentials | Level proposals and acceptance, real arithmetic. |
| C78 | The damping time can move in the virtual mode | DampModel: flags, fixed slots, acceptance in IEEE doubles | case analysis on doubles; contract of pow and exp at infinity and NaN from C11 Annex F | Refuted: in the virtual mode every move of the damping time has a NaN acceptance ratio. IEEE semantics as written; the build sets -ffast-math, which leaves NaN comparisons unspecified. |
| C79 | Seasonal gap from the data | SpanModel: get_seasonal_gap with the qsort of SortModel | sortedness and permutation, loop from the end of the array; index below zero iff fewer points than years | Value and bounds proved; out-of-bounds read with fewer points than years or no continuum refuted for all such data. |
| C80 | Time spans, cadences and report of the end points | SpanModel: both loops over all curves, the report | induction over the curves | Spans, cadences and report proved; the report without a continuum is refuted. |
| C81 | Printed times of the reconstruction are distinct | SpanModel: n_precision_time; grid of RecModel | powers of ten around the logarithm, spacing of C59 against the unit of the last digit; witnesses | Proved for the set with the longest curve; refuted for shorter sets and for the degenerate inputs. |
| C82 | What the reconstruction writes | OutModel: grid of RecModel, rec_set of EndModel for every row and set with the layout of SetsModel, distribution and sums of RecModel | composition of C48_result, C59_grid, the lemma behind C70 and C53; rows of the sample from the flat array | Composes C48, C53, C59 and C70 with the parameter layout. Times in order as read_data checks (they may repeat), no empty curve, extensions of the range that leave some time. LAPACK by contracts; exactness conditions of the covariance formulas as in C31-C36, C61, C62. The existence of the covariance matrices, their inverses and trends is C74_described, C74_mixed_described and C75_described. Real arithmetic; printed digits are C81. |
| C83 | What the reconstruction writes in the virtual mode | VoutModel: grid, rec_vmap and light_curve_normalize of VmapModel for every row and set, sums of RecModel | composition of C72, C73 and the lemmas behind C48; exact ends of the grid; witnesses: data before time 0, data on their trends | Full description of both files for all sets. Two parts of the claim are false of the code and refuted: for data before time 0 only the grid runs on to time 0 (C83_negative_times_refuted); for data lying on their trends NaN is written (C83_rising_lines_refuted). |
| C84 | The command line | GetoptModel: src/mygetopt.c:164-477 with its static variables, the loop and switch of main; CmdSpec: the scan without state | invariant of the permuted array between and inside words, induction over the line; the option string checked for all 256 characters | proved for every line without a word in front of --; refuted: words in front of -- are lost, -: is taken for an option, reporting a bad option hands NULL to printf (for every such line) |
| C85 | What the sampler is told | GetoptModel: the argument arrays of the five drivers, the option loop of the sampler, names of snapshots | the lemma behind C84 for the option string of the sampler, the array unchanged by it, induction over the range; decimal numbers are injective and without underscore | proved for names that fit; refuted: runs of a range share one snapshot file in the mapping modes, directory names of 131 characters and more overflow the sampler's arrays |
| C86 | The likelihood of the continuum mode | ConModel: both likelihoods over the sets, both reconstructions of the continuum, inverse_mat and lndet_mat3 with the factors and pivots of dgetrf | C30 for every set and induction over the sets; the dense functions step by step against the same marginal likelihood, equal because the minimum of chi-square and the best weights are unique; factors exist for every nonsingular matrix (LuProofs) | Real arithmetic; LAPACK by contracts shown satisfiable. That the covariance has an inverse is con_inverse. |
| C87 | What the continuum mode writes | ConModel: post-processing, broadcasts, grid and rows of mc_con | composition of C52 and C60; the grid by arithmetic; witness with extensions that leave nothing | Proved for ranges that leave some time; refuted: nothing checks the extensions, times may run backwards (C87_backwards_refuted). An empty curve is undefined behaviour (C87_empty_undefined). |
| C88 | Determinants from the factors with pivoting | ConModel: det_mat, lndet_mat, lndet_mat2, lndet_mat3 on the factors of dgetrf | determinant of the exchanged product with mathcomp (LuDet), induction over the diagonal; lndet_mat2 refuted with 2x2 matrices where partial pivoting has to exchange the rows | det_mat, lndet_mat, lndet_mat3 proved; the clause on lndet_mat2 is refuted in both directions. lndet_mat2 is called nowhere. |
| C89 | The files of the decomposed components hold the best predictions of each component and add up to the reconstruction | DecOutModel: both output routines of the decomposition, from sample and data to the files | C48 (sums over tasks) around the single-sample prediction C66/C67 for every component, set and row; sums by linearity of the mean; the times of both programs computed and compared for the refutation | files of the components for all sets, components and samples in the general, ratio and mixed modes; sums to pall.txt without range extensions; C89_times_refuted with extensions |
| C90 | Every matrix access of the likelihoods and reconstructions stays inside its allocation | MemModel: allocation, twelve routines as lists of accesses with their callees | a table of arrays with lengths per routine: every access fits its entry, entries lie in order inside the blocks (MemProofs); the loop of the partitioned inverse by induction over its passes; products bounded by the maxima; refutations by computed witnesses | Refines C37 from the pieces of the work array to every element touched, including callees. Refuted where the statement says it fails; whether the singular trend matrix of a set with too few points makes the program exit before the write depends on rounding and is not claimed. |
| C91 | The null mode reads every light curve of the data file as a set of its own | NmapModel: the branch of the reader for the null mode, header and body, with the null pointer of the data sets | loops over sets, lines and rows by induction, each read with the header and row lemmas of C43-C46; a set line without colon reaches the store through the null pointer | File text to sets for the nmap mode; refuted for header lines without a colon (null pointer) and for an empty continuum. |
| C92 | Parameters keep six decimals through the sample files, and no more is lost after the first writing | TextModel: printf of %d, %f, %e, %g and scanf of %lf on binary64; SampTextModel: writing, picking and reading of particles | Flocq: the exact quotient is rounded (Bdiv_correct_aux), six decimals are read back and printed the same (the double is nearer to its decimal than any other), lists by induction; the refutation is computed | printf %f and scanf %lf on binary64, sample file, posterior sample file and their readers; exactness refuted. |
| C93 | Levels keep twelve digits and samples seven through the sampler's files | LevTextModel: the rows of the level, sample information and state files, and their reading with fgets and sscanf | decimals of p digits as rounding to the radix ten format FLX p of Flocq: printing is that rounding, reading rounds to binary64, both are monotone and idempotent; rows by induction; the misplaced sample is computed | Level and sample files from sampler to post-processing, with all digits; likelihoods of seven digits can place samples on the wrong side of a level (refuted). |
| C94 | The parameter table lists every parameter under its name and loads back as a prior file | TabModel: the three table routines with their counter, on the texts of TextModel; loading is the prior file reader of C49 | the loops are one fold over a list of labels, whose n-th element is found from constant block lengths; every line is a record line of C49, the numbers by C92 and C93; the emptied range is computed | Table of parameters: order, names, types, numbers, loading and printing again; limits closer than six decimals collapse (refuted). The changes of set_drw_par_range_load after loading are a separate property. |
| C95 | The option files carry the sampler settings, and the particle look-up agrees with the sampler | OptModel: texts of both option files with "%d" and "%.2f", atof on the texts of TextModel, get_num_particles with its buffer; the sampler side is the reader of C20 | the file is a list of lines whose words are found by general lemmas; values by the nearest-decimal argument of C92 for any number of decimals; the look-up loop by induction over the text with the stale buffer as invariant; acceptance by real bounds through C20 | Option files written for the sampler and the look-up of the particle number; refuted: settings below 0.005, single-word lines, empty files, exponents. |
| C96 | Prior ranges follow from the settings and the data | RangeModel: var_range_model, line_range_model and width_prior of init.c, the lag-prior switch of the mode files, joined to the span and cadence loops (SpanModel) and the range routines (ParamModel) | span and cadence by C80 with a uniqueness argument; slots by C38; values read off through exp; covering of the lags by induction over the components | Explicit prior ranges from settings and data, tiling of the lags, no empty range, obedience to the limits; refuted: negative upper limit, upside-down ranges, widths of prior 3, fixed lags, short spans, left-out limits. |
| C97 | What a run does, and in which order | FlowModel: begin_run, mc_con and the drivers as producers of a trace of steps; files left by earlier runs, the fit and the evidences are parameters | normal form of the trace for all flags, then induction over the numbers of components; options by induction over the parsing loop | Order and content of a run for all options, completion conditions, priors from the fit; refuted: restart of the null mode, decomposition in the virtual mode, table left by -p and -d. |
| C98 | Memory is used only while it is allocated, and what is never freed | HeapModel: every malloc, free and access to a lasting array, function by function, as a program with loops and branches over arbitrary oracles | checker for one name proved sound for all loops, branches and sizes, run for all names in the kernel; the leaking array by induction over the numbers of components | Allocation histories of all pointers of a run; refuted: everything is freed; calling the sampler with and then without ranges. |
| C99 | The width of a proposed step comes from a set interval inside the prior range | StepModel: the level whose limits are used, the reading of the table, the move in binary64; run and table: DnestModel | invariants over the steps of a round and over the rounds (rows untouched or proper, row of an occupied level proper, no threshold below -DBL_MAX); Flocq for the width and the wrap | Ends inside the range once a particle stood there; refuted: always set; always positive. |
| C100 | Wrapping keeps a parameter in its range up to rounding, and draws lie in it | StepModel: mod and dnest_wrap in binary64; WrapModel: the uniform draw | Flocq: monotone rounding for the ends, bounds of the rounding error of each operation for the whole lengths; the floor of a double is exact | Refuted: never above the upper end; a value in the range always stays. |
| C101 | Which parameter a step changes | ParamModel: choose_which over the list of draws, set_fixed_* of every mode | induction on the draws; counting the sequences of draws; induction over the sets for what the set-up fixes | Refuted: variability parameters are drawn more often; the loop always ends. |
| C102 | Inverse and logarithm of the determinant from LAPACK's symmetric factorisation | BkModel: reference dsytf2 and dsytri (outside /repo) over the reals; PartModel, LikeModel: the three functions of mathfun.c on memory | induction over the leading rows; block factorisation [[S + U D U^T, U D], [D U^T, D]] by mathcomp; the pivot test excludes blocks for positive definite matrices | Discharges the contract assumed of dsytrf/dsytri in C29, C30, C60, C69-C75, C86. Refuted: sign and code tell a matrix that is not positive definite. |
| C103 | Likelihood under another origin of time, order of points, units and memory | EndModel, SetsModel, VmapModel: the likelihoods of the four modes; RangeModel: the ranges | the matrices of the rewritten data are permuted and scaled, the trends recombined triangularly by the binomial theorem; determinants by mathcomp; the marginal likelihood is unique (C74, C75) | The mixed mode is required to be away from its near-equal scales in both units, because that test compares with a fixed number. Refuted: the prior range of the damping time is free of units. |
| C104 | What the likelihoods are given, and flux units | FeedModel: end of read_data with cal_mean_error and scale_con_line; arrays from malloc not set until copied | induction over copies, curves and sets; two runs compared step by step | Refuted: free of flux units when the sets share parameters (no normalisation then). |
| C105 | The likelihood functions kept beside the ones in use | OldModel: prob_line_variability, 2, 3 and the vmap version 3, LAPACK by what its routines are for | each brought to the marginal likelihood of PropLike; the value is unique | Refuted: agreement with the function in use for a set without lines (line mode) and with one line (virtual mode): the matrix is not inverted. |
| C106 | A set without lines in the line modes | EndModel with no lines (no new model) | partitioned inversion with no steps leaves the matrix; normal equations of the wrong weights; a two-point witness | Refuted: the reconstruction is the best prediction (un-inverted covariance for sets without lines). |
| C107 | Reconstructed light curves under another way of writing the data | OutModel and RecModel run twice (no new model) | the best linear unbiased prediction is unique and is carried over by relabelling, scaling and shifting; uniqueness of the least-squares trends | General and mixed models; real arithmetic. The virtual mode is not covered. |
| C108 | Arguments of the exponentials in the covariance functions | ExpModel: every formula of KernelModel and MixModel with the exponential as a parameter, and the far branch of the top-hat pairs in binary64 | case analysis of each formula; bound exp(s^2/2 + s u) erfc((u+s)/sqrt 2) <= 2 from the tail of the Gaussian integral; the far branch is 0 times infinity | Covariance functions of src/mc_line.c and src/mc_mmap.c; the exponentials that decode parameters are not the subject. The last sentence of the statement is a refutation (C108_mixed_refuted, C108_overflow). |
| C109 | The earlier reconstructions | OldRecModel: reconstruct_line_from_varmodel and reconstruct_line_from_varmodel2 with their matrix products and LU or symmetric solves | the products come to the generalised least squares formulas, which are the best linear unbiased prediction (C60); uniqueness of the best prediction gives agreement; two points at one time separate them without lines | Real arithmetic. Nothing calls the two functions. The last clause of the statement is a refutation of agreement (C109_no_lines_refuted). |
| C110 | The reconstruction written by one task | SeqModel: output_reconstruction and output_reconstruction2 row by row, their times, arrays, files and the lines of pall_each.txt, around reconstruct_line_from_varmodel3 (EndModel) | the sums are those of one task of RecModel, so that C48 and the argument of C82 apply; the best prediction for any numbers of times from EndProofs; lists of times cut at the counters of the loops | Real arithmetic except C110_one_task, which holds for any arithmetic, doubles included. Nothing calls the two functions. C110_unopened_refuted: after opening pall_each.txt the pointer of pall.txt is tested. |
| C111 | The virtual reconstruction and the decomposition written by one task | VseqModel: output_reconstruction_vmap around rec_vmap and light_curve_normalize (VmapModel), with the part of yq that nothing writes, and output_decompose_line around decompose (DecompModel) | the sums are those of one task, equal to those of any number (C48); the curves do not depend on yq; trends from C72 at the indices the file takes them from; on constant lines the least-squares trend is the level, by positive definiteness; the transformed copy equals the transformation in place (C53) | Real arithmetic. Nothing calls the two functions. C111_trend_refuted: lines of levels 1, 2, 3: the second is written with level 1, the first with the memory. |
| C112 | The functions the sampler supplies itself | DefModel: dnest_from_prior, dnest_perturb, dnest_perturb_limit, dnest_check_fptrset, dnest_check_version and, for the flag and the limits, successive calls of dnest | wrapping as in C14; integrals of the densities by the fundamental theorem; induction over the parameters and over the calls; witnesses | Real arithmetic. The Gaussian is wrapped into the range, not truncated: C112_draw says so. What sscanf does with a version text is an argument: the numbers it could read. C112_version is about patch numbers from 0 on. |
| C113 | The progress bar | BarModel: pb_init, pb_update, showPercent, showCount, pb_print with its buffers and format loop, and the bar the sampler makes; the float operations with a rounding | Flocq single precision: relative error of the three operations, nearest-point argument for exactness, monotony; induction over the cells; witnesses | Single precision rounding is that of Flocq (FLT, nearest even, no overflow: the values stay below 2^37). A float expression is taken to be evaluated in float at each step (FLT_EVAL_METHOD 0). |
| C114 | What Python takes for the lags and responses of a line | PyModel: num_param_var of each class, the two getters with range and slice, indx_line, the columns and _calculate_tran of both scripts, at one point of the lag grid | counting of the layout (ParamSpec.slot); induction over the components against MixSpec.mixed_response; witnesses | Numbers are exact reals; reading the sample file, quantiles and drawing are not modelled. C114_lags_refuted, C114_widths_refuted and C114_photometric_refuted say for all inputs what is returned instead. |
| C115 | Prior strings written by the Python interface | PyModel: the loops that build the strings; ScanModel: the readers in the C code | the string is the colon list of C45, so C45 and C43 apply; for two gaps the second conversion stops at a character other than a colon | %f and %lf are parameters; assumed of them is that a numeral followed by colon, bracket or white space is read back, and for C115_gap_refuted that two texts in a row are not read up to a colon. A reader of decimals with a point meets both (C115_gap_instance). |
| C116 | Data files written by Python | PyDataModel: create_data_file and format_mica; ScanModel: read_data | induction over sets and curves: the written text is a text of the rows in the sense of C42, so the reader gives them back; digits of %e for the dates, evaluation for the long header | %e and %lf are parameters (assumed: a numeral followed by white space is read back). Asked of the data: at least one line per set, no empty line, numbers of rows that are ints, header lines of at most 255 characters. |
| C117 | postprocess.py agrees with the program's post-processing | PyPostModel: postprocess.py between reading the files and printing, next to PostModel | the while loop stops at the level the C loop ends with; the sorts agree on every pair in file order, hence give the same list; linspace gives the fractions of the C code; a simulation over the levels relates the arrays | Over the reals. Files with a single row, which genfromtxt turns into one-dimensional arrays, are not modelled; nor are the plots. |
| C118 | Names of the columns of the posterior sample | PyNamesModel: np.loadtxt of one column, np.where, the loops building colnames, the shapes pandas accepts; TabModel: the table as the program writes it | positions of the names by induction over the blocks; names of components contain a dash and print_d is injective, so names differ; uses the table of C94 | The rule of numpy and pandas for shapes is modelled as: a one-dimensional array is a single column. At least one component. Failure to read the table is not modelled. |
| C119 | Lags printed and drawn are the mean lags and peaks of the responses | PyLagModel: sample_lag and weight_lag, _get_time_lag, cent and norm, cen and cen_pmax, for one row; PyModel: the columns and the drawn curve | sums by induction over the components; the first moments of the four shapes by antiderivatives and limits at both ends; peaks by inequalities for exp; the columns and the curve are those of C114 | The quantiles over the rows, the bins of the histograms and the drawing itself are not modelled. A type above 3 is left out. |

## Axioms of each theorem (as printed by `Print Assumptions`)

**none (closed under the global context)**

C01_particles_inside_their_level, C01_particles_inside_during_round, C01_rows_inside_their_level, C00_sampler_memory_safe, C02_thresholds_permanent, C02_thresholds_nondecreasing, C02_thresholds_increasing, C02_strict_without_distinct_values_refuted, C03_counters_consistent, C04_no_lost_work, C04_tries_count_steps, C06_pool_fits, C06_no_overflow_abort, C06_small_compression_refuted, C07_level_count_bounded, C08_saves_at_any_time, C08_exactly_M_samples, C08_no_abort_after_building, C08_wraparound_refuted, C09_rows_describe_one_particle, C10_same_tables, C10_identical_after_a_round, C10_agree_on_building, C11_replacement_copies_a_survivor, C12_limits_nested, C12_limits_only_grow, C12_limits_contain_recorded, C13_level_wraparound, C16_new_level_is_quantile, C16_pools_are_numeric, C15_callbacks_inconsistent, C15_sort_permutes, C15_level_pool_descending, C15_samples_ascending, C15_centres_ascending, C17_snapshot_round_trip, C17_tasks_get_their_particles_back, C17_step_counter_refuted, C18_fewer_levels_read, C18_reassignment, C18_invariants_across_restarts, C18_memory_safe_across_restarts, C18_restart_succeeds, C18_minus_infinity_refuted, C18_nan_refuted, C19_last_snapshot_is_final_state, C19_rows_after_restart, C19_stop_and_continue, C19_rows_after_crash, C19_crash_refuted, C20_line, C20_values, C20_rejected, C20_accepted, C20_order, C20_interval, C20_terminates, C20_long_comment_refuted, C20_zero_steps_refuted, C20_interval_wrap_refuted, C46_line, C46_accepted, C46_decided, C46_rejected, C46_order, C46_negative_resp_refuted, C46_type_tf_refuted, C46_mmap_prior_refuted, C46_alias_order_refuted, C37_likelihood, C37_likelihood_vmap, C37_continuum, C37_reconstruction, C37_reconstruction_trend, C37_no_line_refuted, C37_decomposition, C37_inverse, C37_matrices, C37_reused_matrix, C37_reused_matrix_refuted, C38_only_lines, C38_own_slot, C38_tile, C38_shared, C38_variability, C38_centre_test, C56_set_of_parameter, C56_shared_refuted, C42_header, C42_data, C42_zero_entry_refuted, C43_actual, C43_first_set, C43_refuted, C44_one_pair, C44_pairs, C44_odd, C44_refuted, C45_lag, C45_width, C49_records, C49_bad_index, C49_comment_loops, C49_unterminated_line_ignored, C49_refuted, C51_actual, C51_otherwise, C51_refuted, C59_one_point_refuted, C48_each_row_once, C48_rounded_variance_refuted, C48_rounded_independence_refuted, C50_best, C50_otherwise, C50_refuted, C53_inplace, C53_copy, C53_agree, C84_command_line, C84_double_dash_refuted, C84_colon_refuted, C84_report_undefined, C84_report_refuted, C85_snapshots, C90_continuum, C90_lines, C90_virtual, C90_sizes, C90_overflow_refuted, C90_few_points_refuted, C90_one_point_refuted, C90_no_lines_refuted, C91_curves, C91_bare, C91_bare_refuted, C91_empty_refuted, C95_particles, C96_default_refuted, C97_options, C98_memory, C98_leak_refuted, C98_api_refuted, C99_rule, C99_ends, C99_set, C99_settled, C99_rejected, C99_unset_refuted, C99_zero_refuted, C101_first, C101_even, C110_one_task, C112_filled, C112_previous, C112_option_refuted, C112_version, C112_version_refuted, C113_unlimited_refuted, C114_lags, C114_widths, C114_refused, C114_lags_refuted, C114_widths_refuted, C114_photometric_refuted, C114_columns, C114_decomposition_refuted, C114_decomposition_one, C115_prior_lag, C115_prior_width, C115_prior_short, C115_gap_one, C115_gap_refuted, C116_created, C116_formatted, C116_missing, C116_long_refuted

**`ClassicalDedekindReals.sig_forall_dec`, `ClassicalDedekindReals.sig_not_dec`, `Classical_Prop.classic`, `FunctionalExtensionality.functional_extensionality_dep`**

C05_log_prior_mass, C21_defined, C21_weights, C21_evidence, C21_information, C21_written_weights, C22_ess, C23_between, C23_order, C23_single, C23_sandwich, C23_weight, C24_posterior, C25_logsumexp, C25_logdiffexp, C25_permutation, C25_shift, C25_no_overflow, C26_vector, C26_matrix, C28_pivots, C28_positive_definite, C29_no_line_refuted, C31_tophat_continuum_line, C31_tophat_line_line, C31_tophat_one_line, C32_exponential_continuum_line, C32_exponential_line_line, C32_exponential_one_line, C32_exponential_accuracy_continuum_line, C32_exponential_accuracy_line_line, C32_band_exact_refuted, C33_gamma_continuum_line, C33_gamma_line_line, C33_gamma_one_line, C33_gamma_accuracy_continuum_line, C33_gamma_accuracy_line_line, C33_band_exact_refuted, C34_gaussian_continuum_line, C34_gaussian_line_line, C34_gaussian_one_line, C35_exponential_symmetric_refuted, C35_gamma_symmetric_refuted, C36_entries, C36_array_entries, C36_reconstruction_data_matrix, C36_reconstruction_matrix, C38_ranges, C39_line, C39_mmap, C39_vmap, C39_pmap, C39_own_fixed, C39_own_conditions, C40_line, C40_mmap, C58_vmap_abort_refuted, C39_own_fixed_mixed, C39_own_fixed_photometric, C39_own_fixed_continuum, C103_held, C55_elapsed, C55_overflow_refuted, C60_kernel_nonnegative, C61_mixed_continuum_line, C62_mixed_line_line, C62_mixed_one_line, C64_gauss_gamma_band_refuted, C65_component_covariances, C65_matrices, C65_time_unit_refuted, C67_component_covariances, C67_matrices, C67_variance_refuted, C68_data_positive_definite, C68_joint_covariance, C68_covariance_symmetric, C68_program_matrix, C68_program_mixed_matrix, C71_program_matrix, C76_line, C76_mmap, C76_pmap, C76_vmap, C76_con, C77_level_moves, C78_damping_refuted, C81_distinct, C81_digits, C81_zero_refuted, C81_grid, C81_short_set_refuted, C88_some_sign_refuted, C88_no_sign_refuted, C89_times_refuted, C92_numbers, C92_sample, C92_posterior, C92_again, C92_exact_refuted, C93_levels, C93_info, C93_again, C93_admissible, C93_order, C93_sandwich, C93_sandwich_refuted, C94_table, C94_reload, C94_again, C94_range_refuted, C95_agree, C95_line, C95_line_particles, C95_accepted, C95_con, C95_small_refuted, C95_lookup_refuted, C96_run, C96_amplitude, C96_centre, C96_width, C96_variability, C96_tile, C96_nonempty, C96_inside, C96_upper_refuted, C96_inverted_refuted, C96_width_refuted, C96_fixed_refuted, C96_short_refuted, C96_photo_refuted, C97_table_refuted, C99_codes, C99_width, C99_nan, C100_range, C100_whole, C100_stays, C100_exact, C100_ends, C100_draw, C100_above_refuted, C100_jump_refuted, C101_favour_refuted, C101_free, C101_hang_refuted, C102_negative_refuted, C103_prior_refuted, C108_general, C108_mixed, C108_mixed_refuted, C108_overflow, C110_same, C110_short, C110_unopened_refuted, C112_draw, C112_step, C112_level_step, C112_type_refuted, C112_freed_refuted, C113_line, C113_grows, C113_full_refuted, C113_overflow_refuted, C114_ratio_response_refuted, C117_same, C117_effective, C117_ties_refuted, C118_columns, C118_default, C118_single_refuted, C119_printed, C119_curve, C119_ratio, C119_peak, C119_mark_refuted

**`ClassicalDedekindReals.sig_forall_dec`, `FunctionalExtensionality.functional_extensionality_dep`**

C14_wrap, C14_wrap_identity, C14_wrap_idempotent, C14_wrap_empty_interval, C14_wrap_reversed_interval_exits, C14_clamp, C29_no_2x2_pivot, C30_trend_matrix, C30_sum_of_sets, C39_con, C39_loaded_ranges_refuted, C40_positivity_refuted, C41_relation_imposed, C41_range_refuted, C57_missing_line_refuted, C47_accepted, C47_factors, C47_file, C47_vmap_rows_uninitialised_refuted, C47_vmap_rows_refuted, C59_grid, C59_empty_line_refuted, C54_ranges, C71_trend_matrix, C79_gap, C79_bounds, C79_one_year, C79_sparse_refuted, C80_span, C80_cadence, C83_grid, C83_negative_times_refuted, C97_null_refuted, C97_virtual_refuted, C101_ends, C104_accepted, C104_data, C104_ends, C104_normal, C104_raw, C104_units, C104_uniform_refuted, C116_dates_refuted

**`ClassicalDedekindReals.sig_forall_dec`, `ClassicalDedekindReals.sig_not_dec`, `ClassicalEpsilon.constructive_indefinite_description`, `Classical_Prop.classic`, `FunctionalExtensionality.functional_extensionality_dep`**

C26_inverse, C27_lndet, C29_iter, C29_semiseparable_iter, C29_one_step, C29_one_step_full, C30_likelihood, C30_trend_invariant, C30_continuum, C60_light_curves, C60_continuum, C66_component_curves, C66_components_add_up, C66_mixed_components_add_up, C66_error_refuted, C69_described, C69_likelihood, C69_mixed_described, C69_mixed_likelihood, C70_light_curves, C70_mixed_light_curves, C71_described, C71_likelihood, C71_one_line_refuted, C72_light_curves, C72_error_refuted, C74_described, C74_general, C74_mixed_described, C74_mixed, C74_virtual_described, C74_virtual, C75_described, C75_ratio, C82_general, C82_mixed, C82_ratio, C83_virtual, C86_likelihood, C86_dense, C86_dense_reconstruction, C87_files, C87_backwards_refuted, C88_logarithm, C89_general, C89_ratio, C89_mixed, C89_add_up, C89_ratio_add_up, C89_mixed_add_up, C102_single, C102_inverse, C102_functions, C102_assumptions, C102_likelihood, C102_sign_refuted, C105_described, C105_general, C105_same, C105_virtual_described, C105_virtual, C105_virtual_same, C105_no_lines_refuted, C105_one_line_refuted, C106_value, C106_curve, C106_curve_refuted, C109_general, C109_same, C109_no_lines_refuted, C110_general, C110_ratio, C110_own, C110_own_ratio, C111_virtual

**`ClassicalDedekindReals.sig_forall_dec`, `ClassicalDedekindReals.sig_not_dec`, `FunctionalExtensionality.functional_extensionality_dep`**

C28_ties_without_error_refuted, C35_gaussian_arrays, C35_tophat_arrays, C35_gamma_arrays, C35_exponential_arrays, C35_gaussian_symmetric, C35_tophat_symmetric, C35_exponential_symmetric, C35_gamma_symmetric, C36_symmetric_and_noise, C36_array_version, C36_array_symmetric_and_noise, C41_not_positive_refuted, C47_output, C48_result, C48_independent, C48_variance, C52_mean_std, C52_mean_in_range, C52_std, C63_mixed_arrays, C63_mixed_symmetric, C65_components_add_up, C67_components_add_up, C73_normalized, C73_fails, C83_trend_data, C85_general, C85_mapping, C85_continuum, C85_mapping_shares, C85_own_snapshot_refuted, C85_long_directory_undefined, C85_long_directory_refuted, C87_times, C87_all_tasks, C87_empty_undefined, C108_same_text, C108_not_gaussian, C111_curves, C111_components, C111_short, C114_response, C114_ratio_response, C114_decomposition_response_refuted, C119_centroid, C119_mark, C119_mark_rows

**`ClassicalDedekindReals.sig_forall_dec`, `ClassicalEpsilon.constructive_indefinite_description`, `Classical_Prop.classic`, `FunctionalExtensionality.functional_extensionality_dep`**

C29_positive_definite_leading, C88_determinant

**`ClassicalDedekindReals.sig_forall_dec`**

C80_report, C80_report_refuted, C97_numbers, C97_sampling, C97_priors, C97_parts, C97_null, C97_examine, C97_ends

**`ClassicalDedekindReals.sig_forall_dec`, `ClassicalDedekindReals.sig_not_dec`, `ClassicalEpsilon.constructive_indefinite_description`, `ClassicalUniqueChoice.dependent_unique_choice`, `Classical_Prop.classic`, `FunctionalExtensionality.functional_extensionality_dep`, `RelationalChoice.relational_choice`**

C83_rising_lines_refuted, C103_general, C103_mixed, C103_ratio, C103_virtual, C103_origin_general, C103_origin_mixed, C103_origin_ratio, C103_origin_virtual, C103_degenerate, C103_fixing, C103_counterpart, C107_general, C107_mixed, C107_one_curve, C107_one_curve_mixed, C111_trend_refuted
