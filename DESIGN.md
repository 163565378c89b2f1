# Formal model of aewallin/allantools in Rocq (Coq 8.16.1)

## Approach

* Every modelled Python function is a total Gallina function. Exceptions are values:
  `res A := Ok a | Err e` where `e` names the Python exception class.
* Numerical functions are written once, over an abstract number interface (`Num A`:
  operations only, **no laws**). Three instances:
  * `R` - exact real arithmetic (Coq's classical reals). All algebraic theorems are here.
  * `X` - exact reals extended with +inf, -inf, NaN (numpy's division/NaN behaviour without
    rounding). Used for NaN/gap behaviour and to show that the `R` theorems never rest on
    `x/0`: on finite inputs the `X` run is the `R` run.
  * `PrimFloat.float` - IEEE binary64; executable. Used to run the model on the data and
    reference results in /repo/tests, and for floating-point witnesses.
  Theorems stated for *every* `Num A` use no algebra and therefore hold of binary64 too.
* numpy arrays are lists; slicing, strided slicing, boolean masks, broadcasting, `np.unique`,
  `cumsum`, `diff`, `nanmean`, ... are modelled as list functions, with numpy's error cases.
* External numerical code (chi2.ppf, polyfit, quad, spline interpolation, FFT, RNG) is a
  universally quantified function/stream argument ("oracle"); any assumption on it is a
  hypothesis visible in the theorem statement.

## Plan per property

<!-- BEGIN TABLE -->
- **C01** tau_generator returns exactly the admissible averaging factors. *Plan:* Model tau_generator over an abstract number type; prove at the exact-real instance: StronglySorted + membership iff against an independent half-even rounding relation.
- **C02** Order and multiplicity of the requested taus never matter. *Plan:* Proved for every instance of the number interface (no algebraic law used), so it covers IEEE floats.
- **C03** Keyword tau lists expand to the documented averaging factors. *Plan:* Exact-real instance; prove the returned m list equals the independently described list by extensionality of strictly sorted lists.
- **C04** Feeding returned taus back is idempotent. *Plan:* Exact-real instance, via round(m/rate*rate)=m; binary64 version via a Flocq error bound (extension).
- **C05** Bad arguments raise, with a determined exception, and nothing else is computed. *Plan:* Exceptions are values in the model; prove the error branch per function.
- **C06** theo1 uses only even m; mtotdev/ttotdev/htotdev only m <= N/3. *Plan:* maximum_m is modelled as a rational; prove m <= N/3 iff 3m <= N.
- **C07** remove_small_ns keeps exactly the rows with n > 1, aligned and in order. *Plan:* Boolean-mask indexing modelled with numpy's length check; induction on rows.
- **C08** Every deviation function returns aligned, non-empty, strictly increasing results with n >= 2. *Plan:* Generic over the number type for the shape part; derived from C01/C07.
- **C09** tau_reduction keeps at most n_per_decade points per decade. *Plan:* Exact-real model with log10 = ln/ln 10; pigeonhole over the rounding bins.
- **C10** trim_data removes exactly the leading and trailing NaNs. *Plan:* The two while loops as fuel-free recursions over the list and its index; generic in the number type.
- **C11** frequency2phase and phase2frequency are inverse up to the mean frequency. *Plan:* Exact-real instance, induction on cumsum.
- **C12** Frequency input equals integrated phase input exactly for the trend-blind statistics, and not for MTIE/TIErms. *Plan:* Corollary of C31 (affine invariance); mtie/tierms refuted with a concrete record.
- **C13** frequency2fractional and phase2radians are the documented affine maps. *Plan:* Exact-real instance.
- **C14** adev computes the non-overlapping Allan deviation. *Plan:* Independent closed form over nat-indexed sums; complete functional specification of the returned tuple.
- **C15** oadev computes the overlapping Allan deviation. *Plan:* As C14.
- **C16** hdev computes the non-overlapping Hadamard deviation. *Plan:* As C14.
- **C17** ohdev computes the overlapping Hadamard deviation. *Plan:* As C14.
- **C18** mdev's running-sum algorithm equals the modified Allan double sum. *Plan:* Loop invariant of the running window sum, by induction on the window index.
- **C19** tdev is tau/sqrt(3) times mdev, row by row. *Plan:* Composition with C18.
- **C20** pdev computes the parabolic deviation. *Plan:* As C14.
- **C21** totdev computes the total deviation on the doubly reflected record. *Plan:* Prove the concatenated array is the piecewise-reflected function, then the slice arithmetic.
- **C22** mtotdev's sliding sums equal the definition on every detrended, reflected subsequence. *Plan:* Loop invariant for the three running sums.
- **C23** ttotdev is tau/sqrt(3) times mtotdev. *Plan:* Composition.
- **C24** htotdev equals ohdev at m=1 and the Hadamard-total definition above. *Plan:* Loop invariant; composition with C17.
- **C25** theo1 computes the Theo1 double sum. *Plan:* Nested loop to double sum; Python negative-index wraparound proved unreachable.
- **C26** tierms is the RMS of the time interval error. *Plan:* As C14.
- **C27** mtie is the largest peak-to-peak excursion over all windows. *Plan:* Max/min over lists proved to be least upper bounds; error branch unreachable for admissible m.
- **C28** gcodev is the square root of the absolute overlapping Allan covariance. *Plan:* As C14.
- **C29** gradev uses exactly the gap-free triples. *Plan:* Instance of the number interface with NaN; filter of defined triples.
- **C30** mtie_phase_fast labels window 2^k points with tau=2^(k-1). *Plan:* Induction on k over the max/min tables; refutation by witness.
- **C31** Constant phase and frequency offsets are invisible to the Allan family. *Plan:* Exact-real instance from the closed forms.
- **C32** A linear frequency drift is invisible to the Hadamard family. *Plan:* As C31.
- **C33** Every deviation is homogeneous: scaling the record by c scales dev and err by |c|. *Plan:* As C31.
- **C34** Changing the sample rate at fixed averaging factor rescales frequency-type deviations only. *Plan:* From closed forms.
- **C35** Overlapping statistics are invariant under time reversal. *Plan:* Reindexing of sums; refutation witnesses for adev, hdev, pdev.
- **C36** At m=1 adev, oadev, mdev and pdev coincide, hdev and ohdev coincide. *Plan:* Generic equality for the first group, exact reals for mdev.
- **C37** MTIE is non-decreasing in tau and bounds TIErms. *Plan:* From the closed forms.
- **C38** Deviations vanish exactly on their null space. *Plan:* Sum of squares zero iff all terms zero.
- **C39** gcodev is symmetric, reduces to oadev, obeys Cauchy-Schwarz and loses the sign. *Plan:* From C28/C15; Cauchy-Schwarz by induction.
- **C40** Three-cornered hat inverts the variance sums and never returns imaginary values. *Plan:* Deviation function is a universally quantified parameter.
- **C41** On closed loops the three-cornered hat equals minus the Allan covariance. *Plan:* Algebra on C15, C28, C40.
- **C42** confidence_interval covers probability ci only for ci >= 1/2. *Plan:* chi2.ppf is an arbitrary function parameter.
- **C43** confidence_interval bounds are ordered and homogeneous. *Plan:* Oracle with stated hypotheses, instance exhibited.
- **C44** gradev passes confidence and edf to confidence_interval in swapped positions. *Plan:* Exact call structure in the model; refutation of the documented contract.
- **C45** edf_simple is positive on its domain. *Plan:* Real inequalities.
- **C46** edf_totdev and edf_mtotdev are the SP1065 tables, positive and linear in N/m. *Plan:* Case analysis.
- **C47** Greenhall kernels are even, with an exact domain. *Plan:* Exact-real model.
- **C48** Greenhall table lookups hit no -1 placeholder in the documented range, but alpha=-4 asserts. *Plan:* Finite table sweep lifted; dispatch model.
- **C49** edf_greenhall lies between 0 and the number of estimator terms, and when it raises. *Plan:* Sum of non-negative terms; sz(0)<>0 by logarithm bounds; table inequalities.
- **C50** autocorr_noise_id always stops, with dmin <= d <= max(dmin,dmax). *Plan:* Loop as fuelled recursion with fuel proved sufficient; polyfit is an oracle.
- **C51** lag1_acf lies strictly inside (-1,1), so rho is always defined and below 1/2. *Plan:* Cauchy-Schwarz type induction.
- **C52** rn() and b1() evaluate at averaging factor round(af*rate^2). *Plan:* Composition with C01; witness.
- **C53** Noise-ID theory tables: b_to_mu, b1_theory, boundaries. *Plan:* Exact-real model.
- **C54** confidence_interval_noiseID dispatches to the right variance family. *Plan:* Dispatch model with oracles.
- **C55** oadev_realtime with fixed AFs equals batch oadev after every sample. *Plan:* Invariant by induction over add_phase operations; refinement to C15's closed form.
- **C56** ohdev_realtime equals batch ohdev after every sample. *Plan:* Invariant by induction.
- **C57** tdev_realtime equals batch tdev (and mdev() equals batch mdev) after every sample. *Plan:* Invariant on (S, So).
- **C58** auto_afs mode of oadev_realtime/tdev_realtime misses the first term of each added AF. *Plan:* Invariant in auto mode + witness.
- **C59** add_frequency integrates without tau0. *Plan:* Fold lemma + C55 + C12.
- **C60** auto_afs with a non-default afs argument misaligns devs and taus. *Plan:* State invariant on lengths.
- **C61** Dataset.compute stores exactly the function's result and leaves the inputs untouched. *Plan:* State machine over an arbitrary function table.
- **C62** Dataset.compute accepts exactly the '...dev' names and three extras. *Plan:* String suffix model.
- **C63** write_results emits one row per tau and an AF column relative to the first tau. *Plan:* File as list of lines, exception aborts midway; binary64 witness.
- **C64** ITU masks: positivity, piecewise values, continuity and monotonicity (or their failure). *Plan:* Exact-real piecewise model.
- **C65** iterpink never fails and keeps its running sum consistent. *Plan:* Generator as state machine with an oracle stream; closed form of the state by induction.
- **C66** white/brown/violet shapes and relations. *Plan:* Oracle stream.
- **C67** Noise.generateNoise is causal convolution with the Kasdin-Walter coefficients. *Plan:* rfft/irfft modelled by their defining trigonometric sums; convolution theorem proved with Dirichlet sums.
- **C68** Noise predictions are mutually consistent. *Plan:* Exact-real model with Rpower; bounds on ln 2, ln 3, ln pi.
- **C69** timmer_koenig_from_psd: sampling holes and odd lengths. *Plan:* Branch-by-branch model; ifft by its defining sum.
- **C70** psd2allan: value, scaling, MDEV <= ADEV, and a failing grid in binary64. *Plan:* Grids generic over the number structure, Simpson formula modelled, cubic interpolation an oracle; composite Simpson closed form by induction, |sin z|<=|z|; binary64 witness by computation.
- **C71** adev2psd_piecewise_approx: validation, structure, continuity and round trip. *Plan:* Branch-by-branch model with log and the Allan integral as functions; inductive spec of slope merging.
- **C72** pdev ignores the last phase sample. *Plan:* From C20 and a witness.
- **C73** gradev's default noisetype can divide by zero. *Plan:* Gap model; edf_simple's denominator N-m.
- **C74** Noise identification of anti-correlated phase data ends in an exception. *Plan:* Composition of C50 and C49.
- **C75** auto_afs uses distinct factors exactly up to five points per decade. *Plan:* Growth of 10^(k/p) by a step of at least 1.58 for p<=5; 10^(1/6)<1.5.
- **C76** numpy_psd: frequency axis and Parseval. *Plan:* rfft by its defining sum; half-spectrum Parseval identity.
- **C77** Kasdin noise types compose. *Plan:* Chu-Vandermonde identity for the coefficients.
- **C78** Expected Allan variance of generated noise against the class's own predictions. *Plan:* Expectation as an abstract linear functional (shown to exist: independent signs); series as a matrix applied to the input; sums of squared coefficients in closed form.
- **C79** The Allan integral: where it converges, and what psd_piecewise_to_adev computes. *Plan:* Improper Riemann integrals (Coquelicot); comparison with powers, Bernoulli bound on sin^(2p) and harmonic series for divergence; linear substitution under the integral.
- **C80** Averaging factors in binary64 arithmetic. *Plan:* Binary64 operations as rounded reals (Flocq over primitive floats); relative error of a chain of products and quotients; selection lemma generic in the number type, instantiated at binary64 and at the reals.
- **C81** Rounding error of adev, oadev, hdev and ohdev in binary64. *Plan:* Rounded-real semantics of binary64 (Flocq over primitive floats); forward error analysis: differences (absolute), sum of squares over any summation tree (relative), root and scaling; triangle inequality in l2; same factors by C80.
- **C82** The equivalent degrees of freedom of edf_greenhall are exact for white phase noise. *Plan:* Expectation as a linear functional with Isserlis' fourth moments (shown to exist: three-point variables); mean and variance of a sum of squared linear forms; autocorrelations in closed form; comparison with the branches of edf_greenhall.
- **C83** mtie in binary64 is the exact MTIE rounded once. *Plan:* Maxima and minima of finite doubles are exact; one subtraction per window; rounding is monotone.
- **C84** Rounding error of mdev and tdev in binary64. *Plan:* Standard rounding-error analysis of the first window, the third differences and their cumulative sum; the lower bound follows a record on which every rounding error has the same sign.
- **C85** Bias of hdev, ohdev, pdev, totdev, theo1 and tierms on generated noise. *Plan:* Expectation as in C78; covariances of the record in closed form; four-point combinations; harmonic sums for theo1; end effects of the reflected record for totdev.
- **C86** The estimators converge as the record grows, at a rate set by the reported n. *Plan:* Every term is a finite filter of the input shifted by a fixed stride; equal diagonal and vanishing far covariances; Cauchy-Schwarz in between.
- **C87** gradev on frequency data stops at the first gap. *Plan:* np.cumsum in the extended reals: NaN from the gap on; the phase record is then one that ends early, to which the phase theorem for gradev applies.
- **C88** Where a missing (NaN) phase point goes. *Plan:* Closed forms of the rows without any arithmetic laws; NaN propagation through sums, cumulative sums, maxima and monadic folds; rows that do not mention the point are syntactically equal.
- **C89** Sign and unit of the record. *Plan:* Two runs of the same code compared operation by operation (relations between samples, squares and deviations); the relations for negation follow from the IEEE specification of the primitive operations, those for scaling from the invariance of 53-bit rounding.
- **C90** Sums of records, resolution and bounded glitches. *Plan:* Each deviation is a seminorm of the record (root of a sum of squares of linear forms, Minkowski; mtie a maximum of absolute linear forms), obtained from the closed forms; the gains are sup-norm bounds of those linear forms, with reflections and detrending for the total statistics.
- **C91** Plots of datasets. *Plan:* Axes are traces of accepted calls, pyplot a global state (figures, current figure, files); invariants by induction over sessions.
- **C92** Spectrum and covariance of the series timmer_koenig_from_psd generates. *Plan:* Inverse and forward trigonometric sums evaluated with the discrete orthogonality relations; the series as a linear form in the deviates.
- **C93** The simplified equations of edf_greenhall for large averaging factors. *Plan:* The sum is a trapezoidal sum of the squared kernel, which is locally Lipschitz; for even alpha the kernel is a piecewise integer polynomial, so that trapezoidal sums and integrals are exact (power sums to degree 15) and the distance to the table is an integer inequality; for odd alpha the integrals of the logarithmic kernels are enclosed with the Interval library, the neighbourhoods of the logarithms' singularities by hand.
- **C94** Level of the noises generated by white, brown and violet. *Plan:* Closed forms of the generated series, their integrals as records of the discrete power-law generator up to a line (to which the deviations are blind), then the expectations of C85; the periodograms as sums of squares of linear forms by partial summation and the Dirichlet kernels.
- **C95** Degrees of freedom for white frequency noise at every averaging factor. *Plan:* Covariance of the second/third differences of a random walk in closed form (2d-th difference of -|u|/2) and its identification with Greenhall's kernel; Isserlis for the quadratic form; C93 for the table; for F = m both sums are piecewise linear in the number of terms beyond the support, so the quotient bound for all record lengths reduces to a computed check over the averaging factors up to 33; for the resampled branch both values are trapezoid sums of (1-u) c(ru)^2, compared through a common refinement with a chord-error bound per cell.
- **C96** scipy_psd: value, offset-blindness, Parseval, and the level it gives for the generated noises. *Plan:* scipy.signal.welch modelled with the defaults scipy_psd leaves in place; Dirichlet sums for the window; summation by parts turns brown and violet noise into quadratic forms in white noise, whose coefficients are again three-term trigonometric sums with closed-form energy; the bounds are polynomial inequalities in sin^2(pi k/L) and sin^2(pi/L).
- **C97** autocorr_noise_id finds the right noise type. *Plan:* Chebyshev bounds for the lag-0 and lag-1 products of the d-th differences; a least-squares polynomial fit takes at most deg+1 dimensions of the energy, and differencing a fitted polynomial is small next to the noise; for a random walk the energy of the record exceeds that of its increments so much that the loop cannot stop early.
- **C98** Confidence intervals from identified noise, end to end. *Plan:* C97 for the identification, pointwise comparison of the two failure events, C82 and C95 (all branches, including resampling) for the true degrees of freedom.
- **C99** Frequency disturbances of bounded size. *Plan:* The semi-norm inequality of C90 and, per deviation, the value on records with bounded increments; alternating records for sharpness.
- **C100** Accuracy of the deviations of frequency data in binary64. *Plan:* Error of each subtraction, addition and product by Flocq; the error of the mean is a line in the phase (invisible, C31), the errors of cumsum have bounded increments (C99), the last product has bounded error (C90), and the computed phase record is evaluated as in C81 and C84.
- **C101** gradev on noise with missing points is unbiased and converges. *Plan:* gradev's value as a sum over the complete triples (C29); moments of quadratic forms; the second differences of distant triples are uncorrelated, and at most 4m+1 distinct triples are near a given one.
- **C102** The three-cornered hat and gcodev on three independent clocks. *Plan:* Mean and variance of sums of products of two linear forms of Gaussian input (fourth moments), the three clocks as disjoint stretches of the input, C28 and C41 for the reported values.
- **C103** Rounding error of tierms, totdev, pdev and theo1 in binary64. *Plan:* Standard rounding-error analysis on Flocq: the extension, differences and weights term by term, sums of near terms in any order, weighted root mean squares.
- **C104** Rounding error of the realtime classes in binary64. *Plan:* Closed form of the accumulators over any number type, forward error analysis of the running sums on Flocq, and an explicit stream for the lower bound.
- **C105** How far noise.pink is flicker noise. *Plan:* Combinatorics of the replacement times (each slot in use is replaced within 3*2^k and not before 2^k steps; few slow slots change in one window), covariance from the distinct deviates, each slot's share of the variance of a linear form bounded both ways.
- **C106** A NaN given to a realtime object. *Plan:* Closed form of the accumulators over any number type (C104) with NaN propagation (C88); the last part by an invariant of the object kept by every pass of the loop.
- **C107** Response to a frequency offset, a frequency drift and a spectral line. *Plan:* Closed forms of the variances on a parabola and on a cosine (product formulas, Dirichlet sums for the mean square and the moving average of mdev); the triangle inequality of C90 for added lines.
- **C108** Rounding error of mtotdev, ttotdev and htotdev in binary64. *Plan:* Closed form of the sliding sums over any number type, then forward error analysis on Flocq of the detrending, the sliding sums and the root mean square; the limit N/3 by monotone rounding.
- **C109** Flicker and random-walk noise of the class Noise against Noise.adev and Noise.mdev. *Plan:* Wallis product by sine integrals gives the limit of the lagged sums of the fractional weights; the variance of any contrast is a double sum of O over the lags; running sums (b - 2) by second differences; Cesaro means for the records; O(n) - ln(n)/2 enclosed by the series of the inverse hyperbolic tangent.
- **C110** Parabolic deviation of the series of Noise against Noise.pdev_from_qd. *Plan:* The parabolic weights are second tail sums of six point weights, so the variance is a sixfold sum of the third running sum of O; the rest as C109.
- **C111** An infinite phase sample. *Plan:* Closed forms of the rows over any number type (C88) evaluated with graded bounds on the finite terms; both arithmetics shown to satisfy the rules used, binary64 from the IEEE axioms and Flocq.
- **C112** Decimated, block-averaged and smoothed records. *Plan:* Over the reals from the closed forms of C01 to C12; the sum over a record is split by residue class of the index.
- **C113** How the deviations of one record bound one another. *Plan:* Over the reals from the closed forms; differences over k m points are sums of k^2 (k^3) differences over m points, then Cauchy-Schwarz and counting.
- **C114** psd2allan as the frequency grid is refined. *Plan:* Over the reals. The composite Simpson sum of C70 is within the modulus of continuity of the integral; the white-noise values from the Fejer kernel and integration by parts. scipy's interpolation is an argument assumed accurate as n grows (the left-sample rule is shown to be).
- **C115** Changing the unit by a power of two. *Plan:* On the binary64 instance with Flocq's rounding: all intermediate values are multiples of a power of two large enough that rounding is that of unbounded exponents, and it commutes with the scaling. C89 has the counterexamples for factors that are not powers of two and for underflow.
- **C116** gcodev in floating point. *Plan:* The binary64 and real instances of the model are run in parallel; a bound on the sum of products by Cauchy-Schwarz, and the second-difference bounds of C81.
- **C117** Three-cornered hat in floating point. *Plan:* A generic theorem for any deviation function with row errors, then the row errors of C81; a counterexample for relative accuracy.
- **C118** gradev in floating point, with gaps. *Plan:* The binary64 instance and the real-with-NaN instance of the model run in parallel; NaN in a second difference is shown to be exactly a missing member; the row bound of C81 for second differences at arbitrary places. Error bars are not compared: scipy's and math's functions are arguments.
- **C119** What one bad sample, one phase step or one frequency step leaves behind. *Plan:* Over the reals from the closed forms of C01 to C12: a line drops out of every difference, so only the terms that overlap the event remain; they are counted and summed in closed form.
- **C120** b1 and rn of generated noise: expected ratios against b1_theory, rn_theory and the boundaries. *Plan:* Over the reals with the expectation functional of C78: the sample variance as a sum over pairs of blocks (Lagrange's identity), the squared filter coefficients of each pair summed in closed form; side conditions by elementary bounds on logarithms.
- **C121** iterpink's running sum in binary64. *Plan:* Binary64 by Flocq on the model of C65; induction on the number of values with the exact sum of the held values (C65) as reference.
- **C122** An infinite sample given to a realtime object. *Plan:* For any arithmetic whose special values follow the extended reals (C111_binary64 shows binary64 is one); the state of the running sum by induction on the number of samples.
- **C123** Joining records. *Plan:* Over the reals from the closed forms of C02-C29: each statistic as a sum of local terms (a term sees only k(m)+1 samples), sums split at the junction.
- **C124** Phase records held in an integer array. *Plan:* ModelInt.v runs the array code with int64 operations and converts at the first division. Reduction modulo 2^64 is a ring homomorphism, so the wrapped sum is the wrap of the exact sum; tables compared row by row with those of the real record.
- **C125** Phase records held in an int32 array. *Plan:* ModelInt32.v runs the array code with int32 operations and an int64 sum. Reduction modulo 2^32 is a ring homomorphism, so each stored square is the wrap of the exact square; the int64 sum of fewer than 2^32 of them is exact.
<!-- END TABLE -->

## Mutation log

How to read `seeded/LOG.jsonl` (883 edits, each tried in a scratch copy):

* `failed` is what was observed: the first proof (or definition) that stopped compiling in each file that failed. The build
  stops there. It is a property theorem in 261 entries and only a supporting lemma in 583.
* `inferred_dependents` was not observed. It lists the property theorems that use what failed, read off the dependencies in
  the sources. A lemma that no longer compiles shows that the existing proof breaks, not that the theorem became false:
  another proof script might still go through. So the 583 lemma-only entries are weaker evidence than the 261 others.
* `claim_broken` is assigned from the definition edited, not worked out edit by edit.
* 39 edits have an empty `failed`; each carries a note saying why, or which theorem was added. Entries whose note says
  "survived at first" list what failed after a theorem was added or strengthened.

## Trusted base

* Coq 8.16.1's kernel (including `vm_compute`) and the compiled standard library.
* Axioms. Every `Theorem` of a property is followed by `Print Assumptions`. The output is one of:
  * *Closed under the global context* - theorems proved for every `Num A` (generic shape, error and
    streaming facts).
  * the four standard-library axioms behind Coq's reals:
    `ClassicalDedekindReals.sig_not_dec`, `ClassicalDedekindReals.sig_forall_dec`,
    `FunctionalExtensionality.functional_extensionality_dep`, and (where Coq's library used it for
    `sin`, `ln`, `exp`, Riemann integrals, ...) `Classical_Prop.classic`;
  * for binary64 witnesses: the primitive float and 63-bit integer types and operations of
    `PrimFloat`/`PrimInt63` (kernel primitives listed by `Print Assumptions` as axioms), and for
    theorems that relate them to reals also the specification axioms of `Floats.FloatAxioms`
    from the standard library.
  Coquelicot is used for the definition of (improper) Riemann integrals in PropsAllanInt.v and of limits and derivatives in FlickerProofs.v; it
  contributes no axiom. Flocq is used for the real value of binary64 numbers and the error of
  one rounding (FloatFacts.v and the Float* property files); it contributes no axiom either.
  The Interval library's tactics enclose the integrals of GreenOdd.v (C93_odd_coef); they compute
  with primitive floats and 63-bit integers, so that theorem also lists `FloatAxioms` and two
  specification axioms of `Uint63`, all from the standard library. The same tactics bound ln 2,
  ln 3 and ln pi in PropsFlicker.v and PropsFlickerP.v (C109, C110), there with integers only, so
  those theorems list the operations of `PrimInt63` and the two axioms of `Uint63`.
  No axiom, `Parameter`, or section-less `Variable`/`Hypothesis` is added here.
* The reading of the Python source: the model was written by hand from the text of /repo; nothing
  in the build checks it against running Python. File Validation.v evaluates the binary64
  instance on the NBS-14 data and compares with the published values quoted in /repo/tests.

### What is modelled

| source | modelled | file |
|---|---|---|
| allantools.py 130-1543 | tdev mdev adev oadev hdev ohdev pdev gcodev totdev ttotdev mtotdev htotdev theo1 tierms mtie (+ its `except` fallback) and all `calc_*` helpers | ModelDev.v |
| allantools.py 1484-1543, 2128-2173, 2232-2310 | mtie_phase_fast, tau_reduction, three_cornered_hat_phase | ModelMisc.v |
| allantools.py 130-837, 1334-1377, 2313-2341 | adev, oadev, hdev, ohdev, mdev, tdev, tierms on an int64 array (wrapping arithmetic) | ModelInt.v |
| allantools.py 269-387, 627-837 | adev, oadev, hdev, ohdev on an int32 array (32-bit differences and squares, 64-bit sum) | ModelInt32.v |
| allantools.py 1546-1665 | gradev, calc_gradev_phase | ModelCi.v |
| allantools.py 1668-1977 | psd2allan, adev2psd_piecewise_approx, psd_piecewise_to_adev | ModelPsd.v |
| allantools.py 1985-2125, 2176-2229, 2313-2400 | input_to_phase, tau_generator, remove_small_ns, trim_data, frequency2phase, phase2radians, phase2frequency, frequency2fractional | ModelCore.v |
| ci.py | confidence_interval, confidence_interval_noiseID, rn, b1, rn/b1 theory and boundaries, b_to_mu, lag1_acf, autocorr_noise_id, edf_greenhall and its kernels and tables, edf_greenhall_simple, edf_totdev, edf_mtotdev, edf_simple | ModelCi.v, ModelCiR.v |
| realtime.py | the base class, oadev/ohdev/tdev_realtime, auto_afs, add_frequency | ModelRt.v |
| dataset.py | Dataset: init, set_input, compute, write_results | ModelData.v |
| plot.py | Plot: init, plot, show, save; matplotlib is a trace of calls, pyplot a global state with a current figure, rejections an oracle | ModelPlot.v |
| mask.py | all eight masks | ModelMask.v |
| noise.py | numpy_psd, scipy_psd, white, brown, violet, pink, iterpink, timmer_koenig_from_psd | ModelNoise.v, ModelNoiseR.v, ModelWelch.v |
| noise_kasdin.py | Noise: all methods | ModelNoiseR.v |

### What is not modelled

* `__init__.py`, the JSON info file. (`noise.scipy_psd` is modelled in ModelWelch.v; what `scipy.signal.welch`
  does with the defaults the call leaves in place is part of that model, and trusted.)
* Printing and warnings (a `print` is a no-op; `warnings` filters are ignored).
* Rounding in the theorems over `R`: they are statements about the formulas, not about binary64
  results. Theorems over every `Num A`, C80, C81, C83, C84, C100, C103, C104 and C108 (which bound the rounding of tau_generator,
  adev, oadev, hdev, ohdev, mtie, mdev and tdev, from phase and from frequency data, of tierms, totdev, pdev, theo1, mtotdev, ttotdev and htotdev from phase data, and of the realtime classes) and the explicit binary64 witnesses do cover rounding.
- Integers are converted to binary64 with one rounding to nearest even, whatever their size (as Python and numpy do);
  Python's OverflowError for an integer of 1024 bits or more is not modelled.
  numpy's pairwise summation order is modelled as left-to-right summation; C81, C84 and C100 also hold
  for any other order.
* numpy dtypes: arrays are one-dimensional lists of one number type; int64 arrays are modelled for seven functions (ModelInt.v, C124), int32 arrays for four (ModelInt32.v, C125). Integer overflow elsewhere, other integer types, float32,
  complex input and multi-dimensional arrays are outside the model.
* scipy/numpy numerical kernels are parameters (oracles): chi2.ppf, polyfit (through `detrend`), cubic
  interpolation, `quad`, random streams. FFTs are the defining trigonometric sums, exact over `R`.
* Randomness: no measure theory. Theorems about noise quantify over every linear expectation with the
  moments they need (second: C78, C85, C94, C96; fourth, Gaussian: C82, C86, C95, C101; and monotone: C97, C98, C102, where a
  probability is the expectation of a 0/1 function). Normal variables are one such expectation; a
  finite one is constructed in each Props file. In C97 and C98 `detrend` (np.polyfit) is any function satisfying the
  least-squares normal equations, and the constant 2500000 is not sharp.
* `Dataset`: the file system (a file is a list of lines; only write order and the
  abort on exception are modelled), `%`-formatting of numbers to text.
* Time, memory, and object identity/aliasing of numpy views.
