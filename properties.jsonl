{"id": "C01", "title": "tau_generator returns exactly the admissible averaging factors", "statement": "For an explicit tau list or array, the averaging factors returned by tau_generator(data, rate, taus, maximum_m) are exactly the integers round_half_even(tau*rate) (tau in taus) that satisfy 0 < m < len(data) and m <= maximum_m; they come strictly increasing without duplicates, and the k-th returned tau is m_k/rate.", "quantifier": "every data length, every nonzero rate, every finite list of real taus (unsorted, duplicated, negative, too large), every maximum_m", "why_tests_cant": "The set of tau lists is infinite; the tests use a handful of already-sorted lists at rate 1.", "anchors": ["allantools/allantools.py:tau_generator"]}
{"id": "C02", "title": "Order and multiplicity of the requested taus never matter", "statement": "Two explicit tau requests containing the same values (in any order, with any repetition, as list or numpy array, provided non-empty) give identical results from tau_generator and from every deviation function - bit for bit, also in floating point.", "quantifier": "every pair of non-empty tau lists with the same set of elements, every data, rate, number type", "why_tests_cant": "Quantifies over all permutations and repetitions of all lists and over all number systems.", "anchors": ["allantools/allantools.py:tau_generator"]}
{"id": "C03", "title": "Keyword tau lists expand to the documented averaging factors", "statement": "taus='all' gives m=1..N-1; taus='octave', None and [] give every power of two below N; taus='decade' gives every 1,2,4 times a power of ten below N (N=len(data)); taus='log10' gives exactly the admissible half-even roundings of P=floor(10 log10 N) log-spaced points from 1 to N. All independent of the rate.", "quantifier": "every data length N>=1 and every nonzero rate", "why_tests_cant": "All N and all rates; tests use N=128, rate=1.", "anchors": ["allantools/allantools.py:tau_generator"]}
{"id": "C04", "title": "Feeding returned taus back is idempotent", "statement": "Calling tau_generator again with the taus it returned (same data, rate, limits) returns the same averaging factors and taus.", "quantifier": "every data length, every nonzero rate, every first tau request", "why_tests_cant": "Round trip over all rates and all tau requests.", "anchors": ["allantools/allantools.py:tau_generator"]}
{"id": "C05", "title": "Bad arguments raise, with a determined exception, and nothing else is computed", "statement": "rate==0 raises RuntimeError for phase input (ZeroDivisionError where 1/rate is evaluated first: freq input and theo1); an unknown data_type raises Exception; an unrecognised taus keyword raises TypeError; a tau request with no admissible averaging factor raises UserWarning; an empty record with a keyword request other than 'all' raises OverflowError. gcodev behaves the same way.", "quantifier": "every data, every deviation function, every unknown string", "why_tests_cant": "Error behaviour must hold for all data values and all strings, for each of 15 functions.", "anchors": ["allantools/allantools.py:tau_generator", "allantools/allantools.py:input_to_phase", "allantools/allantools.py:remove_small_ns"]}
{"id": "C06", "title": "theo1 uses only even m; mtotdev/ttotdev/htotdev only m <= N/3", "statement": "theo1 evaluates exactly the even admissible averaging factors, and mtotdev, ttotdev and htotdev exactly those with 3m <= N, where N is the number of phase samples (frequency samples for htotdev).", "quantifier": "every data length, rate, tau request", "why_tests_cant": "All lengths (including N not divisible by 3) and all requests.", "anchors": ["allantools/allantools.py:tau_generator", "allantools/allantools.py:theo1", "allantools/allantools.py:mtotdev", "allantools/allantools.py:htotdev"]}
{"id": "C07", "title": "remove_small_ns keeps exactly the rows with n > 1, aligned and in order", "statement": "remove_small_ns returns, in order, exactly the (tau, dev, err, n) rows whose n > 1 (for one error array and for the two-array form), and raises UserWarning iff no row qualifies. Columns of unequal length, or an error list of fewer than two arrays, raise IndexError; an error list of three or more arrays raises AssertionError.", "quantifier": "every quadruple of arrays over any number type", "why_tests_cant": "Unbounded array lengths and masks.", "anchors": ["allantools/allantools.py:remove_small_ns"]}
{"id": "C08", "title": "Every deviation function returns aligned, non-empty, strictly increasing results with n >= 2", "statement": "Whenever one of the deviation functions returns, the four outputs have equal positive length, all n >= 2, the taus are m/rate for a strictly increasing list of integers m >= 1 drawn from the requested ones, and the error column is dev/sqrt(n), except that theo1 divides by sqrt(N-m), which is not its reported n, and tierms reports zeros.", "quantifier": "every finite phase record (any length), every positive sample rate and every taus argument", "why_tests_cant": "Shape invariants over all inputs of 15 functions.", "anchors": ["allantools/allantools.py:adev", "allantools/allantools.py:oadev", "allantools/allantools.py:mdev", "allantools/allantools.py:tdev", "allantools/allantools.py:hdev", "allantools/allantools.py:ohdev", "allantools/allantools.py:pdev", "allantools/allantools.py:totdev", "allantools/allantools.py:mtotdev", "allantools/allantools.py:ttotdev", "allantools/allantools.py:htotdev", "allantools/allantools.py:theo1", "allantools/allantools.py:tierms", "allantools/allantools.py:mtie", "allantools/allantools.py:gcodev", "allantools/allantools.py:gradev"]}
{"id": "C09", "title": "tau_reduction keeps at most n_per_decade points per decade", "statement": "Applied to a full list 1..K, tau_reduction returns a strictly increasing sub-list of it, with taus = m/rate, and in every decade [10^k, 10^(k+1)) at most n_per_decade elements are kept; the last element of the input is always dropped.", "quantifier": "every K, every n_per_decade >= 1, every decade", "why_tests_cant": "All K and n; involves rounding of logarithms.", "anchors": ["allantools/allantools.py:tau_reduction"]}
{"id": "C10", "title": "trim_data removes exactly the leading and trailing NaNs", "statement": "trim_data(x) is the contiguous slice of x from its first to its last non-NaN element inclusive (inner NaNs kept); it raises IndexError iff x has no non-NaN element.", "quantifier": "every array over any number type with a NaN test", "why_tests_cant": "Unbounded arrays, all NaN patterns.", "anchors": ["allantools/allantools.py:trim_data"]}
{"id": "C11", "title": "frequency2phase and phase2frequency are inverse up to the mean frequency", "statement": "For gap-free frequency data of length n, frequency2phase returns n+1 phases starting and ending at 0, with phase2frequency(frequency2phase(f, rate), rate) = f - mean(f); conversely frequency2phase(phase2frequency(x, rate), rate) equals x minus its end-to-end straight line.", "quantifier": "every non-empty finite frequency record, every nonzero rate", "why_tests_cant": "Round trip over all data.", "anchors": ["allantools/allantools.py:frequency2phase", "allantools/allantools.py:phase2frequency"]}
{"id": "C12", "title": "Frequency input equals integrated phase input exactly for the trend-blind statistics, and not for MTIE/TIErms", "statement": "For adev, oadev, hdev, ohdev, mdev, tdev, pdev, totdev, mtotdev, ttotdev, theo1 (and htotdev) calling with data_type='freq' gives the same result as calling with the phase record obtained by plain integration (cumsum/rate) of the same data, i.e. the internal mean removal is unobservable. For mtie and tierms this fails: the mean removal changes the result.", "quantifier": "every non-empty finite frequency record, positive rate, taus argument", "why_tests_cant": "Equality of two computation paths for all data; failure needs a witness.", "anchors": ["allantools/allantools.py:input_to_phase", "allantools/allantools.py:frequency2phase", "allantools/allantools.py:mtie", "allantools/allantools.py:tierms"]}
{"id": "C13", "title": "frequency2fractional and phase2radians are the documented affine maps", "statement": "frequency2fractional(f, mu) = (f-mu)/mu elementwise, where mu defaults to mean(f) (also whenever the caller passes exactly -1); with the default the result has zero mean; phase2radians(x, v0) = 2*pi*v0*x elementwise; both preserve length and order.", "quantifier": "every record, every mu", "why_tests_cant": "All data; the sentinel -1 case is never tested.", "anchors": ["allantools/allantools.py:frequency2fractional", "allantools/allantools.py:phase2radians"]}
{"id": "C14", "title": "adev computes the non-overlapping Allan deviation", "statement": "For every admissible averaging factor m (as in C01) adev reports n = number of complete non-overlapping triples (x[km], x[(k+1)m], x[(k+2)m]) and dev = sqrt( sum (x[(k+2)m]-2x[(k+1)m]+x[km])^2 / (2 n (m tau0)^2) ), err = dev/sqrt(n); factors with n<2 are dropped and UserWarning is raised iff none is left.", "quantifier": "every finite phase record (any length), every positive sample rate and every taus argument", "why_tests_cant": "Universal over data; tests compare a few datasets to Stable32 within 1e-4.", "anchors": ["allantools/allantools.py:adev", "allantools/allantools.py:calc_adev_phase"]}
{"id": "C15", "title": "oadev computes the overlapping Allan deviation", "statement": "For every admissible averaging factor m (as in C01) oadev reports n = N-2m and dev^2 = 1/(2 (m tau0)^2 (N-2m)) * sum_{i<N-2m} (x[i+2m]-2x[i+m]+x[i])^2 (SP1065 eq. 11), err = dev/sqrt(n).", "quantifier": "every finite phase record (any length), every positive sample rate and every taus argument", "why_tests_cant": "Universal over data.", "anchors": ["allantools/allantools.py:oadev", "allantools/allantools.py:calc_adev_phase"]}
{"id": "C16", "title": "hdev computes the non-overlapping Hadamard deviation", "statement": "For every admissible averaging factor m (as in C01) hdev reports n = number of complete non-overlapping quadruples and dev^2 = 1/(6 (m tau0)^2 n) * sum (x[(k+3)m]-3x[(k+2)m]+3x[(k+1)m]-x[km])^2.", "quantifier": "every finite phase record (any length), every positive sample rate and every taus argument", "why_tests_cant": "Universal over data.", "anchors": ["allantools/allantools.py:hdev", "allantools/allantools.py:calc_hdev_phase"]}
{"id": "C17", "title": "ohdev computes the overlapping Hadamard deviation", "statement": "For every admissible averaging factor m (as in C01) ohdev reports n = N-3m and dev^2 = 1/(6 (m tau0)^2 (N-3m)) * sum_{i<N-3m} (x[i+3m]-3x[i+2m]+3x[i+m]-x[i])^2 (SP1065 eq. 20).", "quantifier": "every finite phase record (any length), every positive sample rate and every taus argument", "why_tests_cant": "Universal over data.", "anchors": ["allantools/allantools.py:ohdev", "allantools/allantools.py:calc_hdev_phase"]}
{"id": "C18", "title": "mdev's running-sum algorithm equals the modified Allan double sum", "statement": "For every admissible averaging factor m (as in C01) with 3m <= N, mdev reports n = N-3m+1 and dev^2 = 1/(2 m^2 (m tau0)^2 (N-3m+1)) * sum_{j<=N-3m} ( sum_{i=j}^{j+m-1} (x[i+2m]-2x[i+m]+x[i]) )^2 (SP1065 eq. 14); for 3m > N the factor is dropped.", "quantifier": "every finite phase record (any length), every positive sample rate and every taus argument", "why_tests_cant": "The incremental cumsum update must agree with the definition for every m and N.", "anchors": ["allantools/allantools.py:mdev"]}
{"id": "C19", "title": "tdev is tau/sqrt(3) times mdev, row by row", "statement": "tdev returns the same taus and n as mdev, dev = tau*mdev/sqrt(3), err = dev/sqrt(n); hence tdev^2 = tau^2/3 * MVAR and does not depend on the sample rate at fixed m.", "quantifier": "every finite phase record (any length), every positive sample rate and every taus argument", "why_tests_cant": "Relation between two functions on all inputs.", "anchors": ["allantools/allantools.py:tdev"]}
{"id": "C20", "title": "pdev computes the parabolic deviation", "statement": "For every admissible averaging factor m (as in C01) pdev equals oadev at m=1 and for m>1 reports n = N-2m and dev^2 = 72/((N-2m) m^4 (m tau0)^2) * sum_{i<N-2m} ( sum_{k<m} ((m-1)/2-k) (x[i+k]-x[i+k+m]) )^2; factors with N-2m < 2 are dropped.", "quantifier": "every finite phase record (any length), every positive sample rate and every taus argument", "why_tests_cant": "Universal over data.", "anchors": ["allantools/allantools.py:pdev", "allantools/allantools.py:calc_pdev_phase"]}
{"id": "C21", "title": "totdev computes the total deviation on the doubly reflected record", "statement": "For every admissible averaging factor m (as in C01) totdev reports n = N-2 and dev^2 = 1/(2 (m tau0)^2 (N-2)) * sum_{i=2}^{N-1} (x*[i-m]-2x*[i]+x*[i+m])^2, where x* is the record extended by x*[1-j]=2x[1]-x[1+j], x*[N+j]=2x[N]-x[N-j]; every admissible m<N is evaluated (no drop for long tau). A record without samples raises IndexError and one with a single sample ValueError.", "quantifier": "every finite phase record (any length), every positive sample rate and every taus argument", "why_tests_cant": "Index arithmetic on the 3N-4 point extension for every m and N.", "anchors": ["allantools/allantools.py:totdev"]}
{"id": "C22", "title": "mtotdev's sliding sums equal the definition on every detrended, reflected subsequence", "statement": "For each admissible m with 3m <= N, mtotdev reports n=N-3m+1 and dev^2 = 1/(2 (m tau0)^2 (N-3m+1)) * sum_i 1/(6m) sum_{j<6m} ( (S_j - 2 S_{j+m} + S_{j+2m})/m )^2, where S_j is the m-point sum starting at j of the even reflection of subsequence i after removal of the half-average slope.", "quantifier": "every finite phase record (any length), every positive sample rate and every taus argument", "why_tests_cant": "The in-place sliding sum update must agree with the window sums for all m.", "anchors": ["allantools/allantools.py:mtotdev", "allantools/allantools.py:calc_mtotdev_phase"]}
{"id": "C23", "title": "ttotdev is tau/sqrt(3) times mtotdev", "statement": "ttotdev returns the taus and n of mtotdev with dev = tau*mtotdev/sqrt(3), err = dev/sqrt(n).", "quantifier": "every finite phase record (any length), every positive sample rate and every taus argument", "why_tests_cant": "Relation on all inputs.", "anchors": ["allantools/allantools.py:ttotdev"]}
{"id": "C24", "title": "htotdev equals ohdev at m=1 and the Hadamard-total definition above", "statement": "htotdev at m=1 reports exactly ohdev's value for the same record; for m>1 it reports n=Ny-3m+1 and dev^2 = 1/(6 (Ny-3m+1)) * sum_i 1/(6m) sum_{j<6m} ((S_j-2S_{j+m}+S_{j+2m})/m)^2 on the centred-detrended reflected frequency subsequences (Ny = number of frequency samples).", "quantifier": "every finite phase record (any length), every positive sample rate and every taus argument", "why_tests_cant": "As C22.", "anchors": ["allantools/allantools.py:htotdev", "allantools/allantools.py:calc_htotdev_freq"]}
{"id": "C25", "title": "theo1 computes the Theo1 double sum", "statement": "For each even admissible m, theo1 reports n=(N-m)m/2 and dev^2 = 1/(0.75 (N-m)(m tau0)^2) * sum_{i<N-m} sum_{d<m/2} 1/(m/2-d) * ((x[i]-x[i-d+m/2])+(x[i+m]-x[i+d+m/2]))^2, err = dev/sqrt(N-m); no index is ever out of range or negative.", "quantifier": "every finite phase record (any length), every positive sample rate and every taus argument", "why_tests_cant": "Index safety and the sum for all N, m.", "anchors": ["allantools/allantools.py:theo1"]}
{"id": "C26", "title": "tierms is the RMS of the time interval error", "statement": "For every admissible averaging factor m (as in C01) tierms reports n=N-m and dev = sqrt( 1/(N-m) sum_{i<N-m} (x[i+m]-x[i])^2 ), with all errors 0.", "quantifier": "every finite phase record (any length), every positive sample rate and every taus argument", "why_tests_cant": "Universal over data.", "anchors": ["allantools/allantools.py:tierms"]}
{"id": "C27", "title": "mtie is the largest peak-to-peak excursion over all windows", "statement": "For every admissible averaging factor m (as in C01) mtie reports n=N-m and a dev that is the maximum over all i<=N-m-1 and all j,k in [i,i+m] of x[j]-x[k] (attained, and an upper bound); the fallback branch for ValueError is not executed for any averaging factor the tau selection lets through (short of numpy's 2^63-byte limit on strided views); were it executed it would return at most the true value, and 0 at m=1 whatever the data.", "quantifier": "every finite phase record (any length), every positive sample rate and every taus argument", "why_tests_cant": "Universal over data; dead-branch claim.", "anchors": ["allantools/allantools.py:mtie", "allantools/allantools.py:mtie_rolling_window"]}
{"id": "C28", "title": "gcodev is the square root of the absolute overlapping Allan covariance", "statement": "For every admissible averaging factor m (as in C01) and equally long records, gcodev reports n=N-2m and dev = sqrt(|sum_{i<N-2m} d_i e_i| / (2(N-2m))) / m * rate with d_i, e_i the second differences of the two records; records of different lengths raise ValueError (as soon as some requested m leaves both with two terms).", "quantifier": "every pair of finite records of equal length, positive rate, taus", "why_tests_cant": "Universal over data.", "anchors": ["allantools/allantools.py:gcodev", "allantools/allantools.py:calc_gcodev_phase"]}
{"id": "C29", "title": "gradev uses exactly the gap-free triples", "statement": "With NaN marking missing points, gradev at admissible m reports n = number of i<N-2m whose three points x[i],x[i+m],x[i+2m] are all present and dev = sqrt(sum over those of the squared second difference/(2n))/m*rate; factors with n<2 are dropped; on a record without NaN it returns oadev's taus, devs and ns.", "quantifier": "every record with arbitrary gaps", "why_tests_cant": "All gap patterns.", "anchors": ["allantools/allantools.py:gradev", "allantools/allantools.py:calc_gradev_phase"]}
{"id": "C30", "title": "mtie_phase_fast labels window 2^k points with tau=2^(k-1)", "statement": "For a record of N>=4 points truncated to 2^K, the k-th output of mtie_phase_fast is the maximum peak-to-peak over windows of 2^k points, i.e. equals MTIE at averaging factor 2^k-1, while the tau reported is 2^(k-1) irrespective of rate: it agrees with mtie at the reported tau for k=1 and is wrong in general for k>1.", "quantifier": "every record of at least 4 points", "why_tests_cant": "Binary decomposition correctness for all sizes; disagreement needs a witness.", "anchors": ["allantools/allantools.py:mtie_phase_fast"]}
{"id": "C31", "title": "Constant phase and frequency offsets are invisible to the Allan family", "statement": "Adding a + b*i to phase sample i changes no output of adev, oadev, mdev, tdev, hdev, ohdev, pdev, totdev, mtotdev, ttotdev, htotdev, theo1; adding a constant changes no output of tierms and mtie, which do see a phase ramp.", "quantifier": "every record, every a, b, positive rate, taus", "why_tests_cant": "Universal algebraic law.", "anchors": ["allantools/allantools.py"]}
{"id": "C32", "title": "A linear frequency drift is invisible to the Hadamard family", "statement": "Adding a + b*i + c*i^2 to the phase changes no output of hdev and ohdev, whereas oadev of a pure drift is exactly sqrt(2)*|c|*m*rate at averaging factor m.", "quantifier": "every record, every quadratic", "why_tests_cant": "Universal algebraic law.", "anchors": ["allantools/allantools.py:hdev", "allantools/allantools.py:ohdev"]}
{"id": "C33", "title": "Every deviation is homogeneous: scaling the record by c scales dev and err by |c|", "statement": "For each deviation function f, f(c*x) has the same taus and n as f(x), with dev and err multiplied by |c|; for gcodev(x, c*y) the factor is sqrt|c|.", "quantifier": "every record, every real c", "why_tests_cant": "Universal algebraic law.", "anchors": ["allantools/allantools.py"]}
{"id": "C34", "title": "Changing the sample rate at fixed averaging factor rescales frequency-type deviations only", "statement": "At fixed m, multiplying rate by k>0 multiplies adev, oadev, hdev, ohdev, mdev, pdev, totdev, mtotdev, htotdev, theo1 by k, and leaves tdev, ttotdev, mtie, tierms unchanged (phase input).", "quantifier": "every record, rates, m", "why_tests_cant": "Universal algebraic law.", "anchors": ["allantools/allantools.py"]}
{"id": "C35", "title": "Overlapping statistics are invariant under time reversal", "statement": "Reversing the record leaves oadev, ohdev, mdev, tdev, totdev, mtotdev, ttotdev, htotdev, theo1, tierms and mtie unchanged, whereas adev, hdev and (unlike the parabolic variance it implements) pdev are not reversal invariant in general.", "quantifier": "every record", "why_tests_cant": "Universal law plus witnesses.", "anchors": ["allantools/allantools.py"]}
{"id": "C36", "title": "At m=1 adev, oadev, mdev and pdev coincide, hdev and ohdev coincide", "statement": "With taus=[1/rate], adev, oadev and pdev return identical results (bit for bit in any arithmetic), as do hdev and ohdev; mdev returns the same dev and n in exact arithmetic.", "quantifier": "every record of length >= 2, every positive rate (any arithmetic for the first part, whenever m=1 is the only selected factor)", "why_tests_cant": "All records.", "anchors": ["allantools/allantools.py"]}
{"id": "C37", "title": "MTIE is non-decreasing in tau and bounds TIErms", "statement": "The deviations returned by mtie are non-decreasing in tau; at each common tau 0 <= tierms <= mtie; and at any tau mtie never exceeds the peak-to-peak of the whole record.", "quantifier": "every record, rate, taus", "why_tests_cant": "Order property over all data.", "anchors": ["allantools/allantools.py:mtie", "allantools/allantools.py:tierms"]}
{"id": "C38", "title": "Deviations vanish exactly on their null space", "statement": "oadev at m=1 is 0 iff the record is an arithmetic progression; ohdev at m=1 is 0 iff the record is a quadratic progression; mtie at m is 0 iff the record is constant; all deviations are >= 0 for rate>0.", "quantifier": "every record long enough to report the row, every positive rate", "why_tests_cant": "Iff over all data.", "anchors": ["allantools/allantools.py:oadev", "allantools/allantools.py:ohdev", "allantools/allantools.py:mtie"]}
{"id": "C39", "title": "gcodev is symmetric, reduces to oadev, obeys Cauchy-Schwarz and loses the sign", "statement": "gcodev(x,y)=gcodev(y,x); gcodev(x,x)=oadev(x) (devs, errs and ns); gcodev(x,y)^2 <= oadev(x)*oadev(y) at each tau; gcodev(x,-y)=gcodev(x,y), so a negative covariance is indistinguishable from a positive one.", "quantifier": "every pair of equally long records", "why_tests_cant": "Universal inequalities.", "anchors": ["allantools/allantools.py:gcodev"]}
{"id": "C40", "title": "Three-cornered hat inverts the variance sums and never returns imaginary values", "statement": "If the deviation function returns variances sAB=a+b, sBC=b+c, sCA=c+a with a>=0, three_cornered_hat_phase returns dev=sqrt(a), err=dev/sqrt(n) with taus and n of the AB run; in general dev = sqrt(max(0,(sAB+sCA-sBC)/2)) >= 0; unequal lengths raise.", "quantifier": "every deviation function (as an arbitrary total function), every data", "why_tests_cant": "Higher-order quantification.", "anchors": ["allantools/allantools.py:three_cornered_hat_phase"]}
{"id": "C41", "title": "On closed loops the three-cornered hat equals minus the Allan covariance", "statement": "If AB+BC+CA=0 sample by sample, then the three-cornered hat with oadev for clock A equals sqrt(max(0,-cov(AB,CA))), hence equals gcodev(AB,CA) whenever that covariance is <= 0 and 0 otherwise.", "quantifier": "every closed triple of equally long records", "why_tests_cant": "Identity over all data.", "anchors": ["allantools/allantools.py:three_cornered_hat_phase", "allantools/allantools.py:gcodev"]}
{"id": "C42", "title": "confidence_interval covers probability ci only for ci >= 1/2", "statement": "The two chi-squared quantile levels used by confidence_interval are (1-ci)/2 and (1+ci)/2 for 1/2<=ci<=1, but ci/2 and 1-ci/2 for 0<=ci<1/2: the interval for ci and for 1-ci are the same, so a request below 50% is answered with a larger interval than asked. The interval contains sigma exactly when edf*dev^2/sigma^2 lies between the two quantiles, an event of probability max(ci,1-ci) under the law whose quantile function was supplied.", "quantifier": "every ci in [0,1], every dev, edf, quantile function", "why_tests_cant": "Real-valued parameter.", "anchors": ["allantools/ci.py:confidence_interval"]}
{"id": "C43", "title": "confidence_interval bounds are ordered and homogeneous", "statement": "For any quantile function that is positive and increasing in p, 0 < dev and 0 < edf: 0 < dev_min <= dev_max, both are |c|-homogeneous in dev, they bracket dev whenever the two quantiles bracket edf, and shrinking ci within [1/2,1) never widens the interval.", "quantifier": "every such quantile function, dev, edf, ci", "why_tests_cant": "Universal over oracle functions.", "anchors": ["allantools/ci.py:confidence_interval"]}
{"id": "C44", "title": "gradev passes confidence and edf to confidence_interval in swapped positions", "statement": "gradev's error columns are confidence_interval(dev, edf:=ci, ci:=edf): with edf degrees of freedom computed from the data the quantile levels used are min(edf,|edf-1|)/2 and 1 minus that, which lie outside [0,1] as soon as edf>3, so the reported bounds are not the ci-confidence bounds and are NaN when the quantile function is NaN outside [0,1]; also noisetype 'fp' is treated as alpha=-2, and 'ff','rf' as unknown.", "quantifier": "every record, ci, noisetype", "why_tests_cant": "The tests never look at gradev's error bars.", "anchors": ["allantools/allantools.py:calc_gradev_phase", "allantools/ci.py:confidence_interval"]}
{"id": "C45", "title": "edf_simple is positive on its domain", "statement": "For each alpha in {2,1,0,-1,-2} edf_simple(N,m,alpha) is defined and > 0 for all integers m>=1, N>=2m+1 (N>=4 for alpha=-2, (N-1)/(2m)>=1 for alpha=1), and equals N-1 for any other alpha.", "quantifier": "all integers N, m in the domain", "why_tests_cant": "Infinite domain.", "anchors": ["allantools/ci.py:edf_simple"]}
{"id": "C46", "title": "edf_totdev and edf_mtotdev are the SP1065 tables, positive and linear in N/m", "statement": "edf_totdev(N,m,alpha) = b*N/m-c with the Table 7 pair for alpha in {0,-1,-2} and edf_simple otherwise; edf_mtotdev = b*N/m-c with the Table 8 pair for alpha in {2..-2} and AssertionError otherwise; both positive when N>=2m.", "quantifier": "all N, m, alpha", "why_tests_cant": "Infinite domain.", "anchors": ["allantools/ci.py:edf_totdev", "allantools/ci.py:edf_mtotdev"]}
{"id": "C47", "title": "Greenhall kernels are even, with an exact domain", "statement": "greenhall_sw, greenhall_sx and greenhall_sz are even in t for every alpha and F (including the cases that raise); sz returns exactly for d in {1,2,3} with alpha in {-4..2} (finite non-zero F) or alpha in {-6..0} (F = inf); for white PM, sz vanishes for |t| >= d + 1/F.", "quantifier": "all real t, F, all alpha, d", "why_tests_cant": "Real-valued parameters.", "anchors": ["allantools/ci.py:greenhall_sw", "allantools/ci.py:greenhall_sx", "allantools/ci.py:greenhall_sz"]}
{"id": "C48", "title": "Greenhall table lookups hit no -1 placeholder in the documented range, but alpha=-4 asserts", "statement": "For alpha in {-4..2} with alpha+2d>1, tables 1 and 2 hold genuine positive coefficient pairs; table 2 raises AssertionError for alpha=-4 although its row exists, so edf_greenhall(-4,3,m,N) for the overlapping Hadamard variance raises exactly when m>=26 and N>7m; the claim that no placeholder is ever used is false for alpha=3: the modified Allan variance then returns a negative edf for m>=34, N>=6m.", "quantifier": "all alpha in {-4..3}, d in {1,2,3}, all m, N", "why_tests_cant": "Dispatch over unbounded m, N.", "anchors": ["allantools/ci.py:greenhall_table1", "allantools/ci.py:greenhall_table2", "allantools/ci.py:edf_greenhall"]}
{"id": "C49", "title": "edf_greenhall lies between 0 and the number of estimator terms, and when it raises", "statement": "The number of terms M used by edf_greenhall equals the count n reported by adev, oadev, hdev, ohdev and mdev. For m>=1, d in {1,2,3}, alpha in {-4..2}, alpha+2d>1, M>=1: edf_greenhall returns e with 0<e, and e<=M except for sampled flicker PM; the only exceptions are white PM with M<=dS (NotImplementedError) and the assertion of C48. For alpha<=2 the errors are characterised exactly (AssertionError, NotImplementedError, ZeroDivisionError iff M=0); with too few points (M<0) it returns the negative M. edf_greenhall_simple satisfies 0<e<=M; with F=1/m and S the stride it returns the very number edf_greenhall returns whenever min(M,(d+1)S)<=100 and the case is modified, flicker PM or (alpha<=0 with m(d+1)<=100); F=0 or m=0 raises ZeroDivisionError.", "quantifier": "all alpha, d, m, N, overlapping/modified flags", "why_tests_cant": "Infinite domain.", "anchors": ["allantools/ci.py:edf_greenhall", "allantools/ci.py:greenhall_BasicSum", "allantools/ci.py:edf_greenhall_simple"]}
{"id": "C50", "title": "autocorr_noise_id always stops, with dmin <= d <= max(dmin,dmax)", "statement": "For every series of >=30 points after decimation, autocorr_noise_id performs d differentiations with dmin<=d<=max(dmin,dmax), never loops forever, stops at the first d>=dmin with rho<1/4, alpha = -2(rho+d) (+2 for phase data) and in exact arithmetic the integer exponent is within 1/2 of it; shorter series raise NotImplementedError. The series examined is every af-th phase sample detrended by a parabola, or the means of consecutive blocks of af frequencies (incomplete last block dropped) detrended by a line, or for any other data_type the data itself; af=0 with frequency data raises ZeroDivisionError. With IEEE special values a series that is constant after the detrending has autocorrelation 0/0 and raises ValueError.", "quantifier": "every series, af, dmin and dmax below the series length, detrending oracle, any arithmetic", "why_tests_cant": "Termination over all data.", "anchors": ["allantools/ci.py:autocorr_noise_id"]}
{"id": "C51", "title": "lag1_acf lies strictly inside (-1,1), so rho is always defined and below 1/2", "statement": "For every non-constant series |lag1_acf(x)| < 1, hence 1+r1>0 and rho=r1/(1+r1)<1/2; it is invariant under affine maps x -> a x + b (a<>0) and time reversal.", "quantifier": "every non-constant real series", "why_tests_cant": "Inequality over all data.", "anchors": ["allantools/ci.py:lag1_acf"]}
{"id": "C52", "title": "rn() and b1() evaluate at averaging factor round(af*rate^2)", "statement": "rn(x,af,rate) and b1(x,af,rate) request tau=af*rate instead of af/rate: the averaging factor used for the Allan/modified variances is round(af*rate^2), which is af only when rate is 1 (up to rounding); with rate=1 rn is MVAR/AVAR at af and b1 (for at least three averaging intervals and nonzero AVAR) the sample variance of the block frequencies over AVAR.", "quantifier": "every series, af, rate", "why_tests_cant": "Depends on the rate, tests use rate 1.", "anchors": ["allantools/ci.py:rn", "allantools/ci.py:b1"]}
{"id": "C53", "title": "Noise-ID theory tables: b_to_mu, b1_theory, boundaries", "statement": "b_to_mu is defined exactly for integer b in {0..-6} with mu=-alpha-1 for alpha<=0 and -2 for alpha in {1,2}; b1_theory is 1 for white FM, agrees with its general formula, is positive for N>=2; b1_boundary and rn_boundary are geometric means lying between the two neighbouring theory values (the arithmetic branch is unreachable for N>=2).", "quantifier": "every N>=2, b", "why_tests_cant": "All N.", "anchors": ["allantools/ci.py:b1_theory", "allantools/ci.py:b1_boundary", "allantools/ci.py:b_to_mu", "allantools/ci.py:rn_theory", "allantools/ci.py:rn_boundary"]}
{"id": "C54", "title": "confidence_interval_noiseID dispatches to the right variance family", "statement": "For dev_type adev/oadev/mdev/tdev/hdev/ohdev the edf is Greenhall's with (d, overlapping, modified) = (2,F,F)/(2,T,F)/(2,T,T)/(2,T,T)/(3,F,F)/(3,T,F), noise identified with dmax=3 for the Hadamard types and 2 otherwise; any other dev_type raises NotImplementedError (after the noise-ID step).", "quantifier": "every string, every data", "why_tests_cant": "All strings.", "anchors": ["allantools/ci.py:confidence_interval_noiseID"]}
{"id": "C55", "title": "oadev_realtime with fixed AFs equals batch oadev after every sample", "statement": "After any stream of phase samples, for every configured averaging factor af with len>=2af+1 the reported deviation equals batch oadev of the samples so far at that af; before that it is 0.", "quantifier": "every stream, every list of positive AFs, every prefix", "why_tests_cant": "All histories.", "anchors": ["allantools/realtime.py:oadev_realtime"]}
{"id": "C56", "title": "ohdev_realtime equals batch ohdev after every sample", "statement": "As C55 for the overlapping Hadamard deviation (len>=3af+1), also in auto_afs mode for every automatically added factor.", "quantifier": "every stream, every AF list, auto mode included", "why_tests_cant": "All histories.", "anchors": ["allantools/realtime.py:ohdev_realtime"]}
{"id": "C57", "title": "tdev_realtime equals batch tdev (and mdev() equals batch mdev) after every sample", "statement": "After any stream, for every configured af with len>=3af the reported deviation equals the batch TDEV formula with N-3af+1 terms and mdev() the batch MDEV; before that it is 0.", "quantifier": "every stream, every list of positive AFs", "why_tests_cant": "All histories.", "anchors": ["allantools/realtime.py:tdev_realtime"]}
{"id": "C58", "title": "auto_afs mode of oadev_realtime/tdev_realtime misses the first term of each added AF", "statement": "In auto_afs mode (1<=pts_per_decade<=5) the factors in use after N samples are 1 and every round(10^(k/p)) with 2af+1<=N. A factor af>1 is activated while sample 2af+1 is processed, after the accumulators were updated: oadev_realtime therefore divides a sum lacking its first squared difference by the full count, so its value is <= batch oadev, with equality iff the missing term is zero; tdev_realtime's running sum is offset forever by that difference. For any pts_per_decade the live oadev never exceeds the batch value. Equality with the batch functions is refuted by a six-sample stream.", "quantifier": "every stream in auto mode", "why_tests_cant": "Needs history-dependent state; tests only print.", "anchors": ["allantools/realtime.py:dev_realtime.update_af", "allantools/realtime.py:oadev_realtime", "allantools/realtime.py:tdev_realtime"]}
{"id": "C59", "title": "add_frequency integrates without tau0", "statement": "Streaming frequencies f_1..f_n through add_frequency yields the phase record 0, f1, f1+f2, ...: it equals batch processing of the frequency data when tau0=1, and is off by the factor 1/tau0 in the deviation otherwise.", "quantifier": "every stream, every tau0", "why_tests_cant": "All histories, tau0<>1 untested.", "anchors": ["allantools/realtime.py:dev_realtime.add_frequency"]}
{"id": "C60", "title": "auto_afs with a non-default afs argument misaligns devs and taus", "statement": "If auto_afs=True is combined with an afs list of length k>1, the listed factors are ignored and devs() is the default object's devs() followed by k-1 zeros, so devs() and taus() have different lengths forever; with an empty list oadev_realtime and tdev_realtime accept two samples and raise IndexError at the third.", "quantifier": "every stream, every afs list of length <>1, every pts_per_decade>=1", "why_tests_cant": "Never exercised by tests.", "anchors": ["allantools/realtime.py:dev_realtime.__init__"]}
{"id": "C61", "title": "Dataset.compute stores exactly the function's result and leaves the inputs untouched", "statement": "After compute(f) succeeds, out holds taus, stat, stat_err, stat_n of f(data, rate, data_type, taus) and stat_id=f, the returned dict equals these four entries, and inp is unchanged; on any exception both inp and out are unchanged; set_input replaces all four inputs and leaves a stale out.", "quantifier": "every sequence of set_input/compute calls, every function table", "why_tests_cant": "All histories.", "anchors": ["allantools/dataset.py:Dataset.compute", "allantools/dataset.py:Dataset.set_input"]}
{"id": "C62", "title": "Dataset.compute accepts exactly the '...dev' names and three extras", "statement": "compute raises AttributeError iff the name is not defined in the module, otherwise RuntimeError iff it neither ends in 'dev' nor is theo1/mtie/tierms; gcodev and psd_piecewise_to_adev pass the filter but raise TypeError.", "quantifier": "every string", "why_tests_cant": "All strings.", "anchors": ["allantools/dataset.py:Dataset.compute"]}
{"id": "C63", "title": "write_results emits one row per tau and an AF column relative to the first tau", "statement": "write_results writes 3 + #header_params + 1 + len(taus) lines; the AF column is trunc(tau_i/tau_0) = floor(m_i/m_0), which is the averaging factor exactly if the first reported tau is 1/rate; in floating point it can even be off by one there (tau 0.3 at rate 10 prints 2). Called before any successful compute(), or after compute('gradev') with its two error columns, it raises after having truncated the file to its header (for gradev TypeError, or ValueError when digits<1).", "quantifier": "every dataset state", "why_tests_cant": "All states; crash point inside the writer.", "anchors": ["allantools/dataset.py:Dataset.write_results"]}
{"id": "C64", "title": "ITU masks: positivity, piecewise values, continuity and monotonicity (or their failure)", "statement": "All eight masks are positive for tau>=0. prc_tdev, prc_mtie, prtcA_tdev, prtcB_tdev, prtcB_mtie are non-decreasing; eprtc_tdev, eprtc_mtie and prtcA_mtie are not (they drop at 30000 s, 100 s, 273 s). prc_tdev, prc_mtie, prtcA_tdev and prtcB_tdev are continuous; the other four jump. In binary64 even prtcB_tdev drops by one unit in the last place at 100 s.", "quantifier": "every real tau >= 0", "why_tests_cant": "Real-valued parameter.", "anchors": ["allantools/mask.py"]}
{"id": "C65", "title": "iterpink never fails and keeps its running sum consistent", "statement": "For every depth>=1 and every random source, iterpink yields forever without an index error (pink returns num_points values); the n-th value is the sum over the slots of the deviate each slot currently holds plus one fresh deviate, slot k being replaced exactly when n mod depth is an odd multiple of 2^k, so the running sum equals the sum of the values array and each step changes at most one slot. Slots k with 2^k >= depth are never replaced, so a large depth only adds a constant offset. depth=0 raises IndexError. In binary64 the running sum drifts from the sum.", "quantifier": "every depth, every random stream, every number of steps", "why_tests_cant": "Infinite executions, arbitrary randomness.", "anchors": ["allantools/noise.py:iterpink", "allantools/noise.py:pink"]}
{"id": "C66", "title": "white/brown/violet shapes and relations", "statement": "white, brown, violet return num_points samples; phase2frequency of brown gives back the white samples of PSD 4 pi^2 b (all but the first, which is fs times brown's first); violet is fs times the difference of num_points+1 white samples. A negative b*fs raises ValueError, fs=0 makes brown raise ZeroDivisionError.", "quantifier": "every num_points, b, fs, random stream", "why_tests_cant": "Arbitrary randomness.", "anchors": ["allantools/noise.py:white", "allantools/noise.py:brown", "allantools/noise.py:violet"]}
{"id": "C67", "title": "Noise.generateNoise is causal convolution with the Kasdin-Walter coefficients", "statement": "For every nr>=1 (not only powers of two) generateNoise yields nr samples; sample k is sum_{j<=k} h_j w_{k-j} with h_0=1, h_j=h_{j-1}(j-1-b/2)/j (no wrap-around from the FFT); in particular b=0 returns the white samples themselves, b=-2 their running sum and b=-4 the running sum of that. nr=0 raises IndexError.", "quantifier": "every nr, b, qd, random samples", "why_tests_cant": "All sizes.", "anchors": ["allantools/noise_kasdin.py:Noise.generateNoise"]}
{"id": "C68", "title": "Noise predictions are mutually consistent", "statement": "frequency_psd_from_qd = (2 pi)^2 phase_psd_from_qd; adev and mdev have the closed forms 3qd/tau^2, ..., qd tau/(3 tau0^3) per noise type, equal prefactor * tau^(c/2) and scale with sqrt(qd); predicted MDEV never exceeds predicted ADEV for tau>=tau0; pdev_from_qd is a coefficient times the frequency PSD; for non-tabulated b the prediction raises UnboundLocalError.", "quantifier": "every qd>=0, tau0>0, tau>0 (tau>=tau0 for flicker PM), b", "why_tests_cant": "Real parameters.", "anchors": ["allantools/noise_kasdin.py"]}
{"id": "C69", "title": "timmer_koenig_from_psd: sampling holes and odd lengths", "statement": "The sampled PSD is h_i f^alpha_i on the interval containing f, except that it is 0 at a grid frequency exactly equal to the last break frequency; with n=int(duration/timestep) the synthesis raises ValueError for every odd n >= 7 and otherwise (n>=4) returns n samples, of zero mean for output phase; the spectrum is Hermitian for even n but not for n=5; grid frequency k exceeds FFT bin k by (1-2k/n)/((n-1)dt); inconsistent argument sizes and non-positive durations raise ValueError.", "quantifier": "every PSD description, every duration, timestep, random stream", "why_tests_cant": "All n, all grids.", "anchors": ["allantools/noise.py:timmer_koenig_from_psd"]}
{"id": "C70", "title": "psd2allan: value, scaling, MDEV <= ADEV, and a failing grid in binary64", "statement": "psd2allan with step df>0 and n>=4 samples returns, at multiples of tau0=1/((n-1)df), the square root of twice the composite Simpson integral of interpolated PSD times sin^4 z/z^2 (kind 'a...') or sin^6 z/z^4 (kind 'm...', case-insensitive first letter) over 4(n-1)+1 frequencies; scaling the PSD by c>=0 scales it by sqrt(c), variances add over PSDs, 'm' never exceeds 'a' when the interpolated PSD is non-negative; any other kind raises UnboundLocalError; only f[1]-f[0] of a frequency vector is used. The averaging factors are all m>=1 with 2m<n-1 for base<=1; for base b>1 they are (n-1)/2 rounded and the rounded powers b^k with b^(k+1)<=(n-1)/2, so 'base=2: octave' is inaccurate: with 20 samples the factors are 1, 2, 4, 10. Over the reals the fine grid always fits the interpolation range; in binary64 it does not (n=4, df=0.1 overshoots and interp1d raises ValueError).", "quantifier": "every PSD, step, base and kind; every interpolation with the stated algebraic property", "why_tests_cant": "Universal over inputs; the grid failure depends on rounding of particular steps.", "anchors": ["allantools/allantools.py:psd2allan"]}
{"id": "C71", "title": "adev2psd_piecewise_approx: validation, structure, continuity and round trip", "statement": "Inputs are rejected with ValueError exactly when shapes differ, there are fewer than two points, values are non-positive, taus not increasing, the vartype is unknown, or a retained slope is outside the range; h and alpha have one entry per retained slope. Without merging each segment's Allan integral reproduces the deviations at both ends of its interval. The reconstruction is not continuous as documented: at each node the segments differ by (10 tau_i/tau_(i+1))^(mu_(i+1)-mu_i), hence agree only for decade-spaced taus. f_nodes has nseg-1 entries, except 2 when nseg=1, which timmer_koenig_from_psd rejects and with which psd_piecewise_to_adev returns strictly smaller deviations; without nodes the round trip is exact. Out-of-range slopes that are merged are not rejected.", "quantifier": "every input, every value of the Allan integral", "why_tests_cant": "All inputs; continuity and round trip are identities over reals.", "anchors": ["allantools/allantools.py:adev2psd_piecewise_approx", "allantools/allantools.py:psd_piecewise_to_adev", "allantools/noise.py:timmer_koenig_from_psd"]}
{"id": "C72", "title": "pdev ignores the last phase sample", "statement": "For every averaging factor m > 1, pdev sums over the N-2m windows starting at 0..N-2m-1 although N-2m+1 windows fit, so its value does not depend on the last phase sample at all; in general it differs from the variance over all windows.", "quantifier": "every record, every positive rate, every taus request not containing m=1", "why_tests_cant": "Independence of a sample for all data; unit tests compare to reference values with loose tolerance.", "anchors": ["allantools/allantools.py:calc_pdev_phase"]}
{"id": "C73", "title": "gradev's default noisetype can divide by zero", "statement": "With noisetype 'wp' (the default) gradev raises ZeroDivisionError exactly when some requested averaging factor m equals the number of points present in the record and has at least two gap-free triples; with any other noisetype it never raises ZeroDivisionError.", "quantifier": "every record with gaps, every positive rate and admissible taus request", "why_tests_cant": "Needs a specific gap pattern (e.g. every 4th point present, m=4); tests use one random pattern.", "anchors": ["allantools/allantools.py:gradev", "allantools/allantools.py:calc_gradev_phase", "allantools/ci.py:edf_simple"]}
{"id": "C74", "title": "Noise identification of anti-correlated phase data ends in an exception", "statement": "For phase data whose decimated and detrended series has lag-1 autocorrelation below -1/5, autocorr_noise_id identifies alpha>=3, and confidence_interval_noiseID raises NotImplementedError for adev, oadev, hdev, ohdev and (when J<=100) AssertionError for mdev and tdev, instead of returning an interval.", "quantifier": "every series, detrending, af, quantile function", "why_tests_cant": "Tests only use power-law noise of the documented types.", "anchors": ["allantools/ci.py:confidence_interval_noiseID", "allantools/ci.py:autocorr_noise_id", "allantools/ci.py:edf_greenhall"]}
{"id": "C75", "title": "auto_afs uses distinct factors exactly up to five points per decade", "statement": "With 1<=pts_per_decade<=5 the averaging factors of an auto_afs object are always distinct; with pts_per_decade>=6 the factor 1 appears twice after three samples (the source comment guesses 'fail at >=6 (?)').", "quantifier": "every stream, every pts_per_decade>=1", "why_tests_cant": "Unbounded schedule: all decades.", "anchors": ["allantools/realtime.py:dev_realtime.__init__", "allantools/realtime.py:dev_realtime.update_af"]}
{"id": "C76", "title": "numpy_psd: frequency axis and Parseval", "statement": "numpy_psd returns len(x)//2+1 bins; its frequency axis is k fs/N for even N but k fs/(N-1) for odd N (wrong by N/(N-1)); the PSD times the bin width sums to the mean square of x plus the squared mean (and, for even N, plus the squared alternating mean), i.e. the DC and Nyquist bins are doubled although a one-sided PSD must not double them. Empty data or f_sample=0 raise ZeroDivisionError.", "quantifier": "every record, every f_sample", "why_tests_cant": "All lengths and data; tests only plot.", "anchors": ["allantools/noise.py:numpy_psd"]}
{"id": "C77", "title": "Kasdin noise types compose", "statement": "Filtering the series of type c with the coefficients of type b gives the series of type b+c from the same random samples; in particular the series of type b-2 is the running sum of the series of type b (integrating noise lowers its phase-PSD exponent by exactly 2).", "quantifier": "every nr, qd, real b and c, random samples", "why_tests_cant": "Semigroup law over real parameters.", "anchors": ["allantools/noise_kasdin.py:Noise.generateNoise"]}
{"id": "C78", "title": "Expected Allan variance of generated noise against the class's own predictions", "statement": "For any input whose samples are uncorrelated with unit variance, the expected overlapping Allan variance of the series generated by Noise equals the square of Noise.adev exactly for white phase noise (b=0) and white frequency noise (b=-2), and the expected modified Allan variance equals the square of Noise.mdev exactly for b=0. For b=-4 the expected Allan variance is (1+1/(2m^2)) times the prediction and for b=-2 the expected modified Allan variance is (1+1/m^2) times it, so at m=1 the predictions are low by factors 3/2 and 2. The overlapping and non-overlapping estimators have the same expectation.", "quantifier": "every nr, qd>=0, tau0>0, averaging factor fitting the record, every linear expectation with uncorrelated unit-variance samples", "why_tests_cant": "A statement about an expectation: a test sees one random realisation.", "anchors": ["allantools/noise_kasdin.py:Noise.generateNoise", "allantools/noise_kasdin.py:Noise.adev", "allantools/noise_kasdin.py:Noise.mdev", "allantools/allantools.py:oadev", "allantools/allantools.py:mdev"]}
{"id": "C79", "title": "The Allan integral: where it converges, and what psd_piecewise_to_adev computes", "statement": "The integral of q(z) sin^4(z)/z^(3+mu) over the positive half line exists exactly for -2<mu<2 (ADEV) and -2<mu<4 (HDEV), so adev2psd_piecewise_approx's documented and implemented 'convergence' range, closed at both ends, accepts slopes (white phase noise mu=-2, mu=2) for which there is no value. Inside the range the integral is positive and the returned coefficient makes the Allan variance of h f^(-mu-1) equal to the power law at every tau. With exact quadrature psd_piecewise_to_adev returns sqrt of twice the integral of the piecewise PSD times sin^4(pi f tau)/(pi f tau)^2, over any segments. Truncating the integral at any finite node strictly reduces it, so the round trip through the function's own nodes for a single power law always gives strictly smaller deviations.", "quantifier": "every real slope mu, both vartypes, every piecewise PSD with positive nodes, every tau>0", "why_tests_cant": "Existence of improper integrals and a change of variables for all parameters; quad returns a number even when the integral diverges and the warning is suppressed.", "anchors": ["allantools/allantools.py:adev2psd_piecewise_approx", "allantools/allantools.py:psd_piecewise_to_adev"]}
{"id": "C80", "title": "Averaging factors in binary64 arithmetic", "statement": "tau_generator carried out in IEEE binary64 (the arithmetic actually used) selects the right averaging factors. For every finite rate with 2^-900 <= |rate| <= 2^900: the taus it returns, passed back in, are accepted unchanged (round((m/rate)*rate) = m for every m up to 2^49); the keywords 'all', 'octave' (also None and []) and 'decade' give exactly the averaging factors of exact arithmetic for every record up to 2^47 points, with or without the even restriction and any maximum_m; and every reported tau is m/rate within one unit roundoff. Explicit taus give the factors of exact arithmetic whenever t*rate keeps its distance from the half-integers. Without these provisos it is false: 0.35 s at 10 Hz selects m=4 where the exact product of the two doubles rounds to 3, and at a rate of 2^-1060 Hz 'all' selects nothing.", "quantifier": "every finite binary64 rate in the range, every record length up to 2^47 (2^49), every request", "why_tests_cant": "The round trip goes through one to four rounding errors; a test can only try some (m, rate) pairs out of about 2^100.", "anchors": ["allantools/allantools.py:tau_generator"]}
{"id": "C81", "title": "Rounding error of adev, oadev, hdev and ohdev in binary64", "statement": "For every finite record of at most 2^40 phase samples of size at most M and every rate between 2^-100 and 2^100 Hz, the binary64 run of adev, oadev, hdev and ohdev ('all', 'octave', 'decade', or explicit taus away from half-integer factors) and the exact run on the same numbers either both raise the too-few-data warning or return the same averaging factors and counts, and every deviation is finite and within 1.001(n+5) unit roundoffs of itself plus 9 unit roundoffs of M/tau (n+8 and 29 for the Hadamard deviations). The bound holds for every order in which the n squares may be summed (numpy sums pairwise). The M/tau term cannot be dropped: an offset of 2^54 turns a deviation of sqrt(2) into 0, although an offset cancels in exact arithmetic.", "quantifier": "every finite record with the stated bounds, every rate, request and summation order", "why_tests_cant": "A statement about all doubles; tests compare a handful of records against references with relative tolerances.", "anchors": ["allantools/allantools.py:calc_adev_phase", "allantools/allantools.py:calc_hdev_phase", "allantools/allantools.py:adev", "allantools/allantools.py:oadev", "allantools/allantools.py:hdev", "allantools/allantools.py:ohdev"]}
{"id": "C82", "title": "The equivalent degrees of freedom of edf_greenhall are exact for white phase noise", "statement": "For phase records produced by Noise with b=0 (white phase noise) from Gaussian input, the number edf_greenhall(alpha=2, ...) returns is exactly 2 E[V]^2/Var[V] of the squared deviation V reported by adev and oadev (d=2, N>4m), hdev and ohdev (d=3, N>6m), and, when min(M,3m)<=100, mdev and tdev (modified, N>3m; edf_greenhall_simple is exact there without the bound 100; beyond the bound edf_greenhall uses its table or 100 resampled points and stays within 5 % of the true value for every N>3m); for shorter records the unmodified case raises NotImplementedError. The value is not exact in general: for white frequency noise (b=-2, alpha=0) at m=1 it is 18M^2/(23M-6), strictly more than the true 2M^2/(3M-1) for every N>=5 (17% more for long records), so confidence intervals there are too narrow.", "quantifier": "every N, averaging factor in the stated range, rate, qd, every expectation with the second and fourth moments of Gaussian samples", "why_tests_cant": "A statement about the variance of the estimator over all noise realisations; tests compare against tabulated edf values.", "anchors": ["allantools/ci.py:edf_greenhall", "allantools/ci.py:greenhall_BasicSum", "allantools/ci.py:greenhall_sz", "allantools/allantools.py:adev", "allantools/allantools.py:oadev", "allantools/allantools.py:mdev", "allantools/allantools.py:tdev", "allantools/allantools.py:hdev", "allantools/allantools.py:ohdev", "allantools/noise_kasdin.py:Noise.generateNoise"]}
{"id": "C83", "title": "mtie in binary64 is the exact MTIE rounded once", "statement": "For every finite record of at most 2^40 phase samples (size between 2^-400 and 2^400 at most) and every rate between 2^-100 and 2^100 Hz, the binary64 run of mtie and the exact run on the same numbers either both raise the too-few-data warning or return the same averaging factors and counts, and every binary64 value is finite and equals the largest difference of two samples at most m apart, rounded to nearest once. Hence the reported values never decrease with tau, rounding notwithstanding. The one rounding is unavoidable.", "quantifier": "every finite record with the stated bounds, every rate, request", "why_tests_cant": "A statement about all doubles; tests compare a few records with a tolerance.", "anchors": ["allantools/allantools.py:mtie", "allantools/allantools.py:mtie_rolling_window"]}
{"id": "C84", "title": "Rounding error of mdev and tdev in binary64", "statement": "For every finite record of N <= 2^40 phase samples bounded by M (2^-200 <= M <= 2^200), every rate between 2^-100 and 2^100 Hz and every keyword or tie-free explicit tau request, the binary64 runs of mdev and tdev and the exact runs on the same numbers either both raise the too-few-data warning or return the same averaging factors and counts; every binary64 mdev value is finite and within 1.001(n+11)u times the exact deviation plus 40 N u M/tau of it, and every tdev value within 1.001(n+17)u times the exact one plus 40 N u M (u = 2^-53, n the number of windows). The same holds for any order of the np.sum additions, with the sharper constant (10+30/m). The factor N, absent from the bound for oadev, is not an artefact: because np.cumsum carries the window sum along the record, N equal samples 2^53-1 (exact mdev 0, binary64 oadev 0) give a binary64 mdev of at least N/8 u M/tau at tau = tau0, for every N from 8 to 2^40.", "quantifier": "every finite record with the stated bounds, every rate, request, order of summation; every N for the lower bound", "why_tests_cant": "A worst-case statement about all doubles and all record lengths; tests compare a few records with a tolerance.", "anchors": ["allantools/allantools.py:mdev", "allantools/allantools.py:tdev"]}
{"id": "C85", "title": "Bias of hdev, ohdev, pdev, totdev, theo1 and tierms on generated noise", "statement": "For phase records produced by Noise from any uncorrelated unit-variance input, the expected square of the deviation each function reports at tau=m/rate, relative to that of oadev: hdev and ohdev 10/9 for white phase noise (b=0), 1 for white frequency noise (b=-2), (m^2+1)/(2m^2+1) for random walk frequency noise (b=-4); pdev (m>=2) 4(1-1/m^2)/m for b=0 and (6/5)(1-1/m^4) for b=-2; totdev (2m<=N) 1+4(m-p)/(3(N-2)) for b=0, 1+(m-p)/(m(N-2)) for b=-2 (p = m mod 2) and 1-3m/(4(N-2)) up to 2/(N-2) for b=-4; theo1 (8/9)(2 H_{m/2}+2/m) for b=0 and 4/3 for b=-2, so what theo1 reports at tau is the Allan variance at 3 tau/4: at m=4k it equals in expectation the oadev value at 3k. tierms squared is 2 qd for b=0 and m qd for b=-2. Hence totdev and theo1 do not estimate the Allan deviation at the reported tau without bias.", "quantifier": "every nr, qd>=0, rate>0, averaging factor fitting the record, every linear expectation with uncorrelated unit-variance samples", "why_tests_cant": "A statement about an expectation for all m and N: a test sees one random realisation, within wide statistical tolerances.", "anchors": ["allantools/allantools.py:hdev", "allantools/allantools.py:ohdev", "allantools/allantools.py:pdev", "allantools/allantools.py:totdev", "allantools/allantools.py:theo1", "allantools/allantools.py:tierms", "allantools/allantools.py:oadev", "allantools/noise_kasdin.py:Noise.generateNoise"]}
{"id": "C86", "title": "The estimators converge as the record grows, at a rate set by the reported n", "statement": "For phase records produced by Noise with b=0, -2 or -4 (white phase, white frequency, random walk frequency noise) from Gaussian input, the squared deviation V reported at a fixed averaging factor m by adev, oadev, hdev, ohdev, mdev, tdev and pdev has the same mean for every record length, and the variance of V lies between 2/n and 2(2q-1)/n times the squared mean, where n is the number the function reports and q is 3, 2m+1, 4, 3m+1, 3m, 3m and 2m+1 in that order. Hence V converges in mean square to that mean as the record grows, and its equivalent degrees of freedom lie between n/(2q-1) and n.", "quantifier": "every record length, averaging factor, rate, qd>0, every expectation with the second and fourth moments of Gaussian samples", "why_tests_cant": "Convergence is a statement about all record lengths and all noise realisations; a test sees a few random records.", "anchors": ["allantools/allantools.py:adev", "allantools/allantools.py:oadev", "allantools/allantools.py:hdev", "allantools/allantools.py:ohdev", "allantools/allantools.py:mdev", "allantools/allantools.py:tdev", "allantools/allantools.py:pdev", "allantools/noise_kasdin.py:Noise.generateNoise"]}
{"id": "C87", "title": "gradev on frequency data stops at the first gap", "statement": "Given as frequency data, a record with gaps is reduced by gradev to the samples before the first interior gap: leading and trailing gaps are trimmed, and then the deviations, counts and confidence bounds are those of the overlapping Allan deviation of the integral of those samples. Everything after the gap, however long and whatever its values, has no influence on the result. In particular a record whose second sample is missing gives the too-few-data warning for every request; gap resistance holds for phase data (C29) but not for frequency data.", "quantifier": "every real record with at least one sample before an interior gap, any content after it, rate>0, request, ci, noise type", "why_tests_cant": "The claim is about all contents of the discarded part; tests of gradev use phase data or compare one frequency record.", "anchors": ["allantools/allantools.py:gradev", "allantools/allantools.py:calc_gradev_phase", "allantools/allantools.py:frequency2phase", "allantools/allantools.py:trim_data"]}
{"id": "C88", "title": "Where a missing (NaN) phase point goes", "statement": "In any arithmetic whose operations return NaN for a NaN operand (IEEE binary64 among them), one NaN in a phase record makes NaN exactly the rows that use the point: for adev and hdev the averaging factors m dividing its index, for oadev (ohdev) those for which it belongs to a triple i, i+m, i+2m (quadruple) of the record, for tierms to a pair i, i+m, for pdev all of them unless it is the last point and m>=2; all other rows are unchanged, whatever the point is replaced by. For mdev, tdev, totdev, mtotdev, ttotdev, htotdev, theo1 and mtie every row becomes NaN. The error column is NaN with the deviation, except for tierms. A NaN inside frequency data makes every row NaN for all functions but adev, hdev (and htotdev at m=1); htotdev does not even trim NaN at the ends, so that one makes every row from m=2 on NaN.", "quantifier": "every record, position of the NaN, rate, request; every NaN-propagating arithmetic", "why_tests_cant": "A test tries a few positions and averaging factors; which rows survive depends on divisibility and on the record length.", "anchors": ["allantools/allantools.py:adev", "allantools/allantools.py:oadev", "allantools/allantools.py:hdev", "allantools/allantools.py:ohdev", "allantools/allantools.py:mdev", "allantools/allantools.py:tdev", "allantools/allantools.py:pdev", "allantools/allantools.py:totdev", "allantools/allantools.py:mtotdev", "allantools/allantools.py:ttotdev", "allantools/allantools.py:htotdev", "allantools/allantools.py:theo1", "allantools/allantools.py:tierms", "allantools/allantools.py:mtie", "allantools/allantools.py:frequency2phase"]}
{"id": "C89", "title": "Sign and unit of the record", "statement": "In binary64, for every record (NaN, infinities and overflow included), rate and request, negating every sample changes nothing at all: adev, oadev, hdev, ohdev, mdev, tdev, pdev, totdev, mtotdev, ttotdev, htotdev, theo1, tierms, gradev, gcodev (both records negated) and the three realtime classes return the same floats or raise the same exception; mtie returns the same values up to the sign of a zero. Multiplying the record by a power of two (of either sign) multiplies deviations and errors by its absolute value digit for digit, with the same taus and n, in 53-bit arithmetic with unbounded exponent (and by any factor over the reals). In binary64 itself this is not so for other factors (3 moves the last digit of an adev), nor for powers of two that lead to underflow (2^-600 gives deviation 0).", "quantifier": "every record, rate, taus request; every power of two; all rounded arithmetics whose rounding commutes with the factor", "why_tests_cant": "Bit-for-bit equality on all records, special values included, cannot be sampled.", "anchors": ["allantools/allantools.py:adev", "allantools/allantools.py:oadev", "allantools/allantools.py:hdev", "allantools/allantools.py:ohdev", "allantools/allantools.py:mdev", "allantools/allantools.py:tdev", "allantools/allantools.py:pdev", "allantools/allantools.py:totdev", "allantools/allantools.py:mtotdev", "allantools/allantools.py:ttotdev", "allantools/allantools.py:htotdev", "allantools/allantools.py:theo1", "allantools/allantools.py:tierms", "allantools/allantools.py:mtie", "allantools/allantools.py:gcodev", "allantools/allantools.py:gradev", "allantools/realtime.py:oadev_realtime"]}
{"id": "C90", "title": "Sums of records, resolution and bounded glitches", "statement": "Over the reals, for phase records of equal length and any request, every deviation (adev, oadev, hdev, ohdev, mdev, tdev, pdev, totdev, mtotdev, ttotdev, htotdev, theo1, tierms, mtie) of a sum of two records, and its error column, is at most the sum of those of the two records row by row, with the same taus and n (or the same exception); hence two records differ in their deviations by at most the deviation of their difference. If two records agree to within q at every sample (read-out resolution, bounded glitches), their deviations at tau differ by at most sqrt(8) q/tau for adev, oadev, mdev, sqrt(32/3) q/tau for hdev, ohdev, sqrt(8/3) q for tdev, sqrt(18) q/tau for pdev, sqrt(32) q/tau for totdev, sqrt(72) q/tau for mtotdev, sqrt(24) q for ttotdev, sqrt(96) q rate for htotdev, sqrt(64/3 (1+ln(tau rate/2))) q/tau for theo1, and 2q for tierms and mtie. For oadev, ohdev, tierms and mtie these bounds are attained, at every odd averaging factor, by q, -q, q, -q, ...", "quantifier": "every pair of records of equal length, rate > 0, taus request, q", "why_tests_cant": "A bound over all pairs of records (and its sharpness) is a statement about a supremum; no sample of pairs shows it.", "anchors": ["allantools/allantools.py:adev", "allantools/allantools.py:oadev", "allantools/allantools.py:hdev", "allantools/allantools.py:ohdev", "allantools/allantools.py:mdev", "allantools/allantools.py:tdev", "allantools/allantools.py:pdev", "allantools/allantools.py:totdev", "allantools/allantools.py:mtotdev", "allantools/allantools.py:ttotdev", "allantools/allantools.py:htotdev", "allantools/allantools.py:theo1", "allantools/allantools.py:tierms", "allantools/allantools.py:mtie"]}
{"id": "C91", "title": "Plots of datasets", "statement": "Whatever else happens in a session, the axes of a Plot object show one curve per plot() call made on it that did not raise, in order, with exactly the taus, stat and (errorbars=True) stat_err columns stored in the dataset at the time and the keyword arguments given; both scales are logarithmic, the abscissa is labelled Tau, the ordinate with the function name of the last dataset drawn, and the grid is that of the last call. A plot() call that raises (duplicate x/y/yerr keyword with error bars, or a curve matplotlib rejects) leaves every figure as it was. save() writes the figure created or selected last, whichever object it is called on: the most recent object saves its own picture, an earlier one saves somebody else's (refuted). show() puts up all figures made so far as they are at that moment, whichever object it is called on, and no other call puts anything on the screen or in a file. Error bars are stat -+ stat_err, twice as long as the min..max interval write_results prints for the same dataset; for gradev, whose error columns are interval bounds, the bar drawn is not the confidence interval (refuted).", "quantifier": "every session of Plot/Dataset calls; every set of curves matplotlib rejects (whatever is on the axes), scales, labels and grids being accepted", "why_tests_cant": "Interleavings of several objects and pyplot's global current figure are unbounded; image comparison would not show which object a file came from.", "anchors": ["allantools/plot.py:Plot", "allantools/plot.py:Plot.plot", "allantools/plot.py:Plot.save", "allantools/plot.py:Plot.show", "allantools/dataset.py:Dataset.write_results"]}
{"id": "C92", "title": "Spectrum and covariance of the series timmer_koenig_from_psd generates", "statement": "For every accepted target (nodes, coefficients >= 0, slopes) and every even number n of samples, numpy_psd of the phase series generated returns, at the bins k/(n dt), exactly (n-1)/n times the target's phase PSD times half the sum of squares of the two random deviates of that bin (half the square of one deviate at the Nyquist bin, 0 at zero frequency) - but the target is read not at the bin's frequency but at k/(n dt) + (1-2k/n)/((n-1) dt), above the bin for all bins but the last. In expectation (any uncorrelated unit-variance deviates) the PSD is (n-1)/n times the target at those shifted frequencies, half of it at Nyquist, and the series is wide-sense stationary with the covariance that is the cosine sum of that spectrum. The expected PSD is therefore not the target at the bin's own frequency (refuted): for white frequency noise the lowest bin is between (n-1)/(4n) and 0.27 of it for every even n.", "quantifier": "every description with nonnegative coefficients, duration, timestep with an even number n >= 4 of samples, every stream of deviates; every expectation with uncorrelated unit-variance deviates for the mean statements", "why_tests_cant": "A test sees a random realisation of a finite size; the factor at each bin and the frequency shift are hidden in the scatter.", "anchors": ["allantools/noise.py:timmer_koenig_from_psd", "allantools/noise.py:numpy_psd"]}
{"id": "C93", "title": "The simplified equations of edf_greenhall for large averaging factors", "statement": "For J > 100 terms edf_greenhall replaces Greenhall's sum by edf = r/(a0 - a1/r) with tabulated a0, a1 (r = M/S). For the modified variances and for the unmodified ones with alpha <= 0, every d = 1, 2, 3 and every admissible alpha, the complete sum converges to that form as the averaging factor m grows, uniformly in the record length (error of r/edf at most K/m), with a0 = 2 int_0^(d+1) c(t)^2 dt and a1 = 2 int_0^(d+1) t c(t)^2 dt, c the normalised kernel. For odd alpha and d <= 2 the tabulated values are those integrals to 0.001. For every even alpha they are to 0.00055, and the value returned differs from that of the complete sum (edf_greenhall_simple, for the modified variances) by at most 0.3 percent, for every m and N that reach that branch.", "quantifier": "every admissible alpha, d, m, N reaching the large-m branch (N beyond 2(d+1)m)", "why_tests_cant": "The switch at J = 100 hides an infinite family of record lengths and averaging factors; the tables are compared to published values at a few points only.", "anchors": ["allantools/ci.py:edf_greenhall", "allantools/ci.py:greenhall_table1", "allantools/ci.py:greenhall_table2", "allantools/ci.py:greenhall_BasicSum", "allantools/ci.py:edf_greenhall_simple"]}
{"id": "C94", "title": "Level of the noises generated by white, brown and violet", "statement": "For every expectation in which the normal deviates are uncorrelated with unit variance: the squared deviations reported for frequency data from white(n, b0, fs) have mean b0/(2 tau) for adev, oadev, hdev, ohdev (and (1+1/m^2)/2 times that for mdev); from brown(n, b, fs) mean (2 pi^2/3) b tau (1 + 1/(2m^2)) for adev, oadev and (pi^2/3) b tau (1 + 1/m^2) for hdev, ohdev; from violet(n, b, fs) mean 3 b f_h/(4 pi^2 tau^2) with f_h = fs/2 for adev, oadev, 10/9 of it for hdev, ohdev and 1/m of it for mdev: the textbook levels of white, random-walk frequency and white phase noise. The mean of numpy_psd of white is b0 in every bin. For brown it is 2 b/f^2 (x/sin x)^2 with x = pi k/n, more than twice the documented b/f^2 in every bin (refuted), and for violet b (fs/2pi)^2 (4 (n-1)/n sin^2(pi k/n) + 2/n), which in the lowest bin exceeds every multiple of b f^2 as n grows (refuted): the undetrended end points leak into all bins.", "quantifier": "every n, level, rate, averaging factor m with 4m <= n, bin k <= n/2, every expectation with uncorrelated unit-variance deviates", "why_tests_cant": "The claims are about expectations over random series of every length; a test compares one realisation against a tolerance wide enough to hide factors of two in a few bins.", "anchors": ["allantools/noise.py:white", "allantools/noise.py:brown", "allantools/noise.py:violet", "allantools/noise.py:numpy_psd", "allantools/allantools.py:adev", "allantools/allantools.py:oadev", "allantools/allantools.py:hdev", "allantools/allantools.py:ohdev", "allantools/allantools.py:mdev", "allantools/allantools.py:frequency2phase"]}
{"id": "C95", "title": "Degrees of freedom for white frequency noise at every averaging factor", "statement": "For phase records that are the sum of independent normal steps (white frequency noise), the true equivalent degrees of freedom of adev, oadev, hdev and ohdev at every averaging factor m and for every record length are Greenhall's complete sum with F = infinity. edf_greenhall(alpha=0) returns exactly this value when (d+1)m > 100 and the estimator is non-overlapping or has at most 100 terms; it is within 0.3 % of it when it uses the table (overlapping, 100 < (d+1)m < number of terms), and within 5 % when it spreads 100 points over the range instead of the terms (overlapping, 100 < number of terms <= (d+1)m); for (d+1)m <= 100, where the function takes F = m, it is between 0.88 and 1.19 times the true value, and not exact (C82). So for every averaging factor and every record length with at least two terms the degrees of freedom are between 0.88 and 1.19 times the true ones.", "quantifier": "every m >= 1, every record length with at least two terms, d = 2, 3, overlapping or not, every rate and noise level, every expectation with Gaussian moments", "why_tests_cant": "The true degrees of freedom are a ratio of moments over all realisations; the tests compare the function with published single numbers, so neither the exactness nor the size of the error for all lengths can be seen.", "anchors": ["allantools/ci.py:edf_greenhall", "allantools/ci.py:greenhall_BasicSum", "allantools/ci.py:greenhall_sz", "allantools/ci.py:greenhall_sx", "allantools/ci.py:greenhall_sw", "allantools/ci.py:greenhall_table2", "allantools/allantools.py:adev", "allantools/allantools.py:oadev", "allantools/allantools.py:hdev", "allantools/allantools.py:ohdev"]}
{"id": "C96", "title": "scipy_psd: value, offset-blindness, Parseval, and the level it gives for the generated noises", "statement": "scipy_psd(x, fs, nr) with 1 <= nr <= len(x) returns floor(L/2)+1 bins with L = floor(len(x)/nr), at frequencies k fs/L, whose values are the one-sided averaged periodograms of half-overlapping Hann-windowed segments without their mean; zero segments or a zero rate raises ZeroDivisionError, more segments than points or a negative number raises ValueError, no data gives empty arrays. Adding an offset to x changes nothing, a factor c multiplies by c^2. The density times the bin width sums to the mean window-weighted variance of the segments. On average over the generated noise: for white(b0) every bin is b0, except b0/6 and 5/6 b0 in the two lowest and b0/2 at the Nyquist frequency; for brown(b) bin k >= 2 (Nyquist: half) lies between b/f^2 (x/sin x)^2 and 3/2 of it, and within 5/k^2 of it; for violet(b) it is within 5/(6k^2) of b f^2 (sin x/x)^2, where x = pi f/fs.", "quantifier": "every data list, every rate, every number of segments; every expectation with uncorrelated unit-variance samples, every number of points with segments of at least 3 (white) or 4 points", "why_tests_cant": "The level of a spectral estimate is a statement about the mean over all realisations; a test sees one realisation with chi-square scatter of order 1 in every bin, and cannot tell leakage of a window from that scatter.", "anchors": ["allantools/noise.py:scipy_psd", "allantools/noise.py:white", "allantools/noise.py:brown", "allantools/noise.py:violet"]}
{"id": "C97", "title": "autocorr_noise_id finds the right noise type", "statement": "For Gaussian noise of a known type the probability that autocorr_noise_id returns another exponent (or raises) is at most 2500000/n, n the number of points left after decimation by the averaging factor af, so that it tends to zero as the record grows. Phase data from Noise: b=0 gives +2 (white phase), b=-2 gives 0 (white frequency), b=-4 gives -2 (random walk frequency), when the number of differences needed (0, 1, 2) lies between dmin and dmax. Frequency data: white gives 0, brown gives -2, violet gives +2. This holds for every averaging factor, although block averaging and decimation change the spectrum of the random walks (their increments become correlated by up to 1/4).", "quantifier": "every record length, averaging factor, level, rate, dmin, dmax; every monotone expectation with the moments up to order four of independent normal samples; every detrend that satisfies the least-squares normal equations", "why_tests_cant": "A claim about probabilities over all realisations for all lengths and averaging factors; a test identifies the type of a few simulated records.", "anchors": ["allantools/ci.py:autocorr_noise_id", "allantools/ci.py:lag1_acf", "allantools/ci.py:detrend", "allantools/noise_kasdin.py:Noise.generateNoise", "allantools/noise.py:white", "allantools/noise.py:brown", "allantools/noise.py:violet"]}
{"id": "C98", "title": "Confidence intervals from identified noise, end to end", "statement": "A user generates or records Gaussian power-law phase noise, computes one deviation with adev, oadev, hdev, ohdev, mdev or tdev and passes the record and the deviation to confidence_interval_noiseID under the same name. The probability that this does not end with the two-sided chi-square interval for the degrees of freedom of the true noise type (white phase, white frequency, random walk frequency) is at most 2500000/ceil(N/m). For white phase noise these are the true degrees of freedom of the estimator for adev, oadev, hdev, ohdev when N > 2dm, and within 5 % of them for mdev and tdev when N > 3m; for white frequency noise they are between 0.88 and 1.19 times the true ones for adev, oadev, hdev, ohdev whenever there are two terms.", "quantifier": "every record length, averaging factor, rate, noise level, probability ci and every quantile function; every monotone expectation with the moments up to order four of independent normal samples; every least-squares detrend", "why_tests_cant": "The claim joins three functions and is about the probability over all realisations; the tests check the intervals of a few fixed data sets against published digits.", "anchors": ["allantools/ci.py:confidence_interval_noiseID", "allantools/ci.py:confidence_interval", "allantools/ci.py:autocorr_noise_id", "allantools/ci.py:edf_greenhall", "allantools/allantools.py:adev", "allantools/allantools.py:oadev", "allantools/allantools.py:hdev", "allantools/allantools.py:ohdev", "allantools/allantools.py:mdev", "allantools/allantools.py:tdev", "allantools/noise_kasdin.py:Noise.generateNoise"]}
{"id": "C99", "title": "Frequency disturbances of bounded size", "statement": "If two phase records have fractional frequencies (rate times the increment) that differ by at most p at every sample, or if two frequency records differ by at most p at every sample, every deviation computed from them for the same taus has the same taus and counts and differs by at most g(tau) p, whatever the record length: g = sqrt 2 for adev, oadev, mdev, pdev, totdev, sqrt(8/3) for hdev, ohdev, sqrt(4/3) for theo1, sqrt 8 for mtotdev, sqrt 24 for htotdev, sqrt(2/3) tau for tdev, sqrt(8/3) tau for ttotdev, and tau for tierms and mtie of phase records (2 tau for frequency records, whose mean the library removes first). The bounds for oadev, ohdev, tierms and mtie are attained at m = 1.", "quantifier": "every pair of records of equal length, every rate > 0, every p, every taus argument", "why_tests_cant": "Integration turns a bounded frequency error into a phase error that grows with the record; that the deviations nevertheless do not grow holds for all records or not at all, and a test sees a few of them.", "anchors": ["allantools/allantools.py:adev", "allantools/allantools.py:oadev", "allantools/allantools.py:mdev", "allantools/allantools.py:tdev", "allantools/allantools.py:hdev", "allantools/allantools.py:ohdev", "allantools/allantools.py:pdev", "allantools/allantools.py:totdev", "allantools/allantools.py:mtotdev", "allantools/allantools.py:ttotdev", "allantools/allantools.py:htotdev", "allantools/allantools.py:theo1", "allantools/allantools.py:tierms", "allantools/allantools.py:mtie", "allantools/allantools.py:frequency2phase"]}
{"id": "C100", "title": "Accuracy of the deviations of frequency data in binary64", "statement": "For up to 2^26 frequency values of size at most Y whose partial sums of distances to their mean are at most S, computed in binary64 from data_type='freq': adev, oadev, hdev, ohdev, mdev and tdev have the taus and counts of exact arithmetic (or raise the same warning), every deviation is finite, and it differs from the exact deviation of the same data by at most 1.001 (n+c) u of itself plus (5 + 15/m) u (S+Y) for adev, oadev, (6 + 36/m) u (S+Y) for hdev, ohdev, (5 + 44 (N+1)/m) u (S+Y) for mdev, (3 + 44 (N+1)/m) u (S+Y) tau for tdev (u = 2^-53; c = 5, 8, 11, 17). So although the rounding errors of the integration (np.cumsum) add up in the phase, and the mean subtracted is only approximate, they do not add up in the Allan and Hadamard deviations. The mean may be summed in any order.", "quantifier": "every such list of binary64 numbers (2^-90 <= Y <= 2^90), every rate between 2^-100 and 2^100, every keyword and every tau list clear of rounding ties", "why_tests_cant": "The accumulated rounding error depends on all partial sums of the data; a test sees it for a handful of records, and compares with another computation that has the same errors.", "anchors": ["allantools/allantools.py:frequency2phase", "allantools/allantools.py:trim_data", "allantools/allantools.py:adev", "allantools/allantools.py:oadev", "allantools/allantools.py:hdev", "allantools/allantools.py:ohdev", "allantools/allantools.py:mdev", "allantools/allantools.py:tdev"]}
{"id": "C101", "title": "gradev on noise with missing points is unbiased and converges", "statement": "Take a generated noise record (white or random-walk noise of slope 0, -2 or -4, any strength) and remove any set of its points. gradev at averaging factor m then reports one row whose n is the number of triples (i, i+m, i+2m) with no missing point (if there are at least two), and the mean of its squared deviation over all realisations of the noise is exactly the Allan variance of the complete noise, whatever the pattern of gaps. For Gaussian noise the relative variance of the squared deviation is at least 2/n and at most 2(4m+1)/n, so the value converges in mean square as complete triples accumulate, uniformly in the record length and in the pattern of gaps.", "quantifier": "every mask of missing points, every record length, averaging factor, rate, noise strength, confidence argument and quantile function, every expectation with the moments named", "why_tests_cant": "The gap pattern has 2^N values and the claim is about averages over all realisations of the noise; a test sees a few patterns and one random seed.", "anchors": ["allantools/allantools.py:gradev", "allantools/allantools.py:calc_gradev_phase", "allantools/noise_kasdin.py:Noise.generateNoise"]}
{"id": "C102", "title": "The three-cornered hat and gcodev on three independent clocks", "statement": "Let three clocks A, B, C carry independent generated noise of any of the slopes 0, -2, -4 and any strengths, and let va, vb, vc be their Allan variances at tau = m/rate. The combination (oadev(A-B)^2 + oadev(C-A)^2 - oadev(B-C)^2)/2 has mean exactly va; gcodev(A-B, A-C) reports the square root of its absolute value and three_cornered_hat_phase(A-B, B-C, C-A) the square root of its positive part, with n = N - 2m. Over all realisations va <= E[hat^2] <= E[gcodev^2], so neither underestimates the clock on average; the mean-square error of both squared values is at most (4m+1)/n ((va+vb)(va+vc) + va^2), so they converge to va however bad the other clocks are; and the probability that the hat reports 0 is at most that bound divided by va^2.", "quantifier": "every record length N with N - 2m >= 2, every averaging factor, rate, three noise types and strengths (also zero), every expectation with the moments named", "why_tests_cant": "The statement is about averages over all realisations of three noises; a test compares one realisation with a loose tolerance.", "anchors": ["allantools/allantools.py:gcodev", "allantools/allantools.py:calc_gcodev_phase", "allantools/allantools.py:three_cornered_hat_phase", "allantools/allantools.py:oadev", "allantools/noise_kasdin.py:Noise.generateNoise"]}
{"id": "C103", "title": "Rounding error of tierms, totdev, pdev and theo1 in binary64", "statement": "For phase data of up to 2^40 samples of size at most M computed in binary64: tierms, totdev, pdev and theo1 report the taus and counts of exact arithmetic (or raise the same warning), every deviation is finite and non-negative, and it differs from the exact deviation of the same samples by at most 1.001 J u of itself plus: nothing (below 2^-535) for tierms with J = n+5; 16 u M/tau for totdev with J = n+11; (9m+19) u M/tau for pdev with J = n+12; 11 sqrt(1 + 1/2 + ... + 2/m) u M/tau for theo1 with J = N - m/2 + 13 (u = 2^-53, tau = m/rate). So tierms is accurate however small it is compared with the samples. The same bounds hold with every sum added up in any order.", "quantifier": "every such list of binary64 numbers with 2^-200 <= M <= 2^200 and at least two samples, every rate between 2^-100 and 2^100, every keyword and every tau list clear of rounding ties, every order of summation", "why_tests_cant": "Rounding errors depend on every bit of the record; tests compare a few records with a tolerance chosen to pass.", "anchors": ["allantools/allantools.py:tierms", "allantools/allantools.py:totdev", "allantools/allantools.py:pdev", "allantools/allantools.py:calc_pdev_phase", "allantools/allantools.py:theo1"]}
{"id": "C104", "title": "Rounding error of the realtime classes in binary64", "statement": "For a phase stream of up to 2^40 samples of size at most M, computed in binary64 with a fixed list of averaging factors: no sample raises, every deviation is finite and non-negative, and after every sample it differs from the exact live value of the same samples by at most 1.001 J u of itself plus 7 u M/(af tau0) for oadev_realtime (J = N - 2af + 10), 13 u M/(af tau0) for ohdev_realtime (J = N - 3af + 10), (6 + 12/af) N u M for tdev_realtime (J = N - 3af + 11) and (11 + 21/af) N u M/(af tau0) for its mdev() (J = N - 3af + 18), u = 2^-53. The growth with N of the tdev_realtime term is real: a stream of N >= 8 equal values, whose deviation is 0, reports at least N/8 u times that value, because the running window sum is never recomputed.", "quantifier": "every such stream of binary64 numbers with 2^-200 <= M <= 2^200, every tau0 between 2^-100 and 2^100, every list of positive averaging factors (at most 2^40 for mdev())", "why_tests_cant": "The error accumulates over the whole history of the object; tests stream one short file and compare with a tolerance.", "anchors": ["allantools/realtime.py:oadev_realtime.update_S", "allantools/realtime.py:ohdev_realtime.update_S", "allantools/realtime.py:tdev_realtime.update_S", "allantools/realtime.py:tdev_realtime.update_S3n", "allantools/realtime.py:tdev_realtime.mdev"]}
{"id": "C105", "title": "How far noise.pink is flicker noise", "statement": "For every expectation in which the normal deviates are uncorrelated with unit variance: the product of two values of iterpink(depth) has as mean the number of slots not replaced in between (plus 1 for the variance), so from depth samples on it is the constant depth - ceil(log2 depth) of the slots that never change and no correlation is left. The Allan variance (adev, oadev of the frequency data) has a mean between 1/9 and 9 at every averaging factor m <= depth, whatever the depth, the rate and the length of the record: a flicker floor. For every m it is between 1/m and (6 depth + 1)/m, so the floor ends at about depth samples and the variance then falls as for white noise. The mean of numpy_psd is between 2/fs and 2(6 depth + 1)/fs in every bin from 1 to n/2, however long the record: the documented 'any continuous set of these samples will tend to have a 1/f power spectrum' is refuted, for every depth and every level of 1/f, by every sufficiently long set.", "quantifier": "every depth >= 1, number of points, rate, averaging factor m with 3m <= n, bin, every expectation with uncorrelated unit-variance deviates", "why_tests_cant": "Statements about means over random records of every length; a test sees one realisation of one length, and the flicker floor holds up to the depth.", "anchors": ["allantools/noise.py:pink", "allantools/noise.py:iterpink", "allantools/noise.py:numpy_psd", "allantools/allantools.py:adev", "allantools/allantools.py:oadev"]}
{"id": "C106", "title": "A NaN given to a realtime object", "statement": "A NaN phase sample given to oadev_realtime or ohdev_realtime with a fixed list of averaging factors makes the deviation for af NaN exactly when the sample belongs to a triple (quadruple) of points af apart in the record so far, and leaves every other deviation as it was; tdev_realtime, and its mdev(), turn NaN for every af with 3 af samples or more, whichever sample it is. A NaN frequency given to add_frequency makes every deviation reported at all NaN. No call raises. The object never recovers: in any configuration (automatic factors included) and any state, once the window completed by a sample holds a NaN, that entry of the deviations is NaN after every further sequence of samples.", "quantifier": "every arithmetic in which NaN operands give NaN (binary64 in particular), every stream, position, list of positive averaging factors and tau0; for the last part every configuration and every state of the object", "why_tests_cant": "The effect depends on the whole later history of the object; the tests stream clean data only.", "anchors": ["allantools/realtime.py:oadev_realtime.update_S", "allantools/realtime.py:ohdev_realtime.update_S", "allantools/realtime.py:tdev_realtime.update_S", "allantools/realtime.py:tdev_realtime.update_S3n", "allantools/realtime.py:tdev_realtime.mdev", "allantools/realtime.py:dev_realtime.add_frequency"]}
{"id": "C107", "title": "Response to a frequency offset, a frequency drift and a spectral line", "statement": "Over the reals, for phase data sampled from x(t), in every row of every answer: for x = a + bt + Dt^2/2 the deviation is |D| tau/sqrt 2 (adev, oadev, mdev), |D| tau^2/sqrt 6 (tdev), 0 (hdev, ohdev), |D| tau/sqrt 2 (1 - 1/m^2) for pdev at m >= 2, and |D|/rate sqrt((11h-5)(h+1))/6 with h = m/2 for theo1; for x = a + bt tierms and mtie report |b| tau. For x = A cos(2 pi nu t + phi) the square of the deviation differs from (A G)^2 by at most (A G)^2/(n |sin 2 pi nu/rate|) (n the reported count; |sin 2 pi nu tau| for adev, hdev) and never exceeds 2 (A G)^2, with the textbook transfer G = 2 sin^2(pi nu tau)/tau for adev and oadev, (4/sqrt 3)|sin^3|/tau for hdev and ohdev, 2|sin^3|/(m tau |sin(pi nu/rate)|) for mdev, tau/sqrt 3 times that for tdev, sqrt 2 |sin| for tierms. Adding the line to any other record changes each deviation by at most sqrt 2 A G, and not at all in the rows where tau is a whole number of periods.", "quantifier": "every record length, rate > 0, request accepted, amplitude, frequency (aliased ones included), phase, offset and drift", "why_tests_cant": "Transfer functions hold for every tau, frequency and phase at once; tests use noise records.", "anchors": ["allantools/allantools.py:adev", "allantools/allantools.py:oadev", "allantools/allantools.py:mdev", "allantools/allantools.py:tdev", "allantools/allantools.py:hdev", "allantools/allantools.py:ohdev", "allantools/allantools.py:pdev", "allantools/allantools.py:theo1", "allantools/allantools.py:tierms", "allantools/allantools.py:mtie"]}
{"id": "C108", "title": "Rounding error of mtotdev, ttotdev and htotdev in binary64", "statement": "For phase data of 2 to 2^39 samples of size at most M computed in binary64: mtotdev, ttotdev and htotdev report the taus and counts of exact arithmetic (or raise the same warning; in particular the test m <= N/3 never goes wrong by rounding), every deviation is finite and non-negative, and it differs from the exact deviation of the same samples by at most 1.001 J u of itself plus (206m+130) u M/tau for mtotdev with J = n+6m+14, (124m+80) u M for ttotdev with J = n+6m+20, and (142m+90) u M rate for htotdev with J = n+6m+14 (u = 2^-53, tau = m/rate, n the reported count). So the 6m updates of each sliding sum, restarted for every stretch, cost an error proportional to m and not to the length of the record. The same bounds hold for each row with every sum added up in any order.", "quantifier": "every such list of binary64 numbers with 2^-200 <= M <= 2^200, every rate between 2^-100 and 2^100, every keyword and every tau list clear of rounding ties, every order of summation", "why_tests_cant": "Rounding errors depend on every bit of the record; tests compare a few records with a tolerance chosen to pass.", "anchors": ["allantools/allantools.py:mtotdev", "allantools/allantools.py:calc_mtotdev_phase", "allantools/allantools.py:ttotdev", "allantools/allantools.py:htotdev", "allantools/allantools.py:calc_htotdev_freq"]}
{"id": "C109", "title": "Flicker and random-walk noise of the class Noise against Noise.adev and Noise.mdev", "statement": "Write O(n) = 1 + 1/3 + ... + 1/(2n-1). For flicker noise (b = -1 and b = -3) made by Noise from uncorrelated unit-variance input, the expected squared oadev, adev, ohdev, hdev and mdev at tau = m tau0 never exceed, and for long records tend to, explicit values: for b = -1 2qd/(pi tau^2)(4O(m) - O(2m)) for oadev and adev, 2qd/(3 pi tau^2)(15O(m) - 6O(2m) + O(3m)) for ohdev and hdev, and similar closed forms for mdev and for b = -3. Against the predictions of the class: the limit exceeds Noise.adev^2 by 0.72 to 0.88 times qd/(pi tau^2) for b = -1 (so is at most 1.2 times it), by (3/8 O(m) - 0.075 to -0.041) 2qd/(pi tau^2) for b = -3; it exceeds Noise.mdev^2 by (5/2 O(m) - 0.63 to -0.33) qd/(pi m^2 tau^2) for b = -1; for b = -4 the expectation is Noise.mdev^2 (1 + 5/(11m^2) + 4/(11m^4)) exactly, for any record length. For b = -3 Noise.mdev uses (27/20) ln 2 where the limit is (27 ln 3 - 32 ln 2)/8: from m = 64 on the expectation stays at least 0.01 per cent below the prediction, however long the record.", "quantifier": "every m >= 1, qd >= 0, rate > 0, every record length for the upper bound, every uncorrelated zero-mean unit-variance input", "why_tests_cant": "Expectations over the noise and limits of long records cannot be measured exactly; the tests of the project compare single realisations with a loose tolerance.", "anchors": ["allantools/noise_kasdin.py:generateNoise", "allantools/noise_kasdin.py:adev", "allantools/noise_kasdin.py:mdev", "allantools/noise_kasdin.py:adev_from_qd", "allantools/noise_kasdin.py:mdev_from_qd", "allantools/allantools.py:adev", "allantools/allantools.py:oadev", "allantools/allantools.py:hdev", "allantools/allantools.py:ohdev", "allantools/allantools.py:mdev"]}
{"id": "C110", "title": "Parabolic deviation of the series of Noise against Noise.pdev_from_qd", "statement": "With p = Noise.pdev_from_qd, m >= 2 and O as in C109, the expected squared pdev of the series of Noise is p^2/tau^3 (1 - 1/m^2) for b = 0, p^2/tau (1 - 1/m^4) for b = -2 and p^2 tau (1 - 14/(13m^2) + 7/(13m^4) - 6/(13m^6)) for b = -4, exactly and for every record length. For b = -1 and b = -3 it never exceeds and for long records tends to a closed form in O(m), O(2m), which for b = -3 lies 0.64 to 1.05 times qd/(pi m^2 tau0^2) below p^2. For b = -1 the closed form differs from 3(ln 16 - 1)/(2 pi^2) h_1/tau^2 by (9 O(m) - 17 to -13) qd/(pi m^2 tau^2), while the code has (3 ln 16 - 1)/(2 pi^2), a misplaced parenthesis: the expectation is at most 3/4 of p^2/tau^2 for every m and every record length.", "quantifier": "every m >= 2, qd >= 0, rate > 0, every record length, every uncorrelated zero-mean unit-variance input", "why_tests_cant": "Expectations over the noise; the project has no test of pdev_from_qd.", "anchors": ["allantools/noise_kasdin.py:generateNoise", "allantools/noise_kasdin.py:pdev_from_qd", "allantools/noise_kasdin.py:phase_psd_from_qd", "allantools/allantools.py:pdev", "allantools/allantools.py:calc_pdev_phase"]}
{"id": "C111", "title": "An infinite phase sample", "statement": "Let one sample of the phase be +inf or -inf and the others finite. adev, oadev, hdev, ohdev and tierms report +inf (never NaN, never a negative value) in every row that uses the sample (which rows, see C88), with error bar +inf except for tierms; mtie reports +inf in every row; pdev reports +inf at m = 1 and at every even m (unless the sample is the last), but NaN at odd m >= 3 when the sample falls on the middle of one half of a window, whose weight is 0. mdev and tdev report +inf only when the sample enters their running sum once; otherwise the sum meets inf - inf and the row is NaN: for p < m with p + 3m < N, for m <= p < 2m with p + 2m < N and for p >= 2m with p + m < N. So the same record gives inf from one function and NaN from another. The arithmetic of infinities and NaN (sum, difference, product, quotient except by -0, root, absolute value, comparisons, rounding) of binary64 is that of the extended reals.", "quantifier": "every record of at most 2^49 samples of size at most 2^800, position, sign of the infinity, rate between 2^-100 and 2^100 and tau argument; binary64 and exact arithmetic with infinities", "why_tests_cant": "Whether a row is inf or NaN depends on the position of the sample, m and N together; the tests use finite data only.", "anchors": ["allantools/allantools.py:adev", "allantools/allantools.py:oadev", "allantools/allantools.py:hdev", "allantools/allantools.py:ohdev", "allantools/allantools.py:tierms", "allantools/allantools.py:mtie", "allantools/allantools.py:pdev", "allantools/allantools.py:mdev", "allantools/allantools.py:tdev", "allantools/allantools.py:calc_mdev_phase", "allantools/allantools.py:calc_pdev_phase"]}
{"id": "C112", "title": "Decimated, block-averaged and smoothed records", "statement": "adev and hdev of a phase record decimated by D (every D-th sample from the first, rate/D) equal adev and hdev of the full record at averaging times that are multiples of D/rate: same taus, deviations, errors and counts, or the same exception. For frequency data the same holds with means of D consecutive values in place of decimation. oadev is not unchanged by decimation; instead, for oadev, ohdev and tierms, count times squared deviation at D k samples is the sum over the D interleaved sub-records x[j::D] of theirs at k samples. mdev at m samples is oadev at m samples of the m-point moving mean. mtie of a decimated or moving-averaged record never exceeds mtie of the record at the same averaging time.", "quantifier": "every record, rate > 0, decimation factor and list of averaging times", "why_tests_cant": "Each identity ties two calls on different records for every decimation factor and length, including lengths that are not multiples of it.", "anchors": ["allantools/allantools.py:adev", "allantools/allantools.py:hdev", "allantools/allantools.py:oadev", "allantools/allantools.py:ohdev", "allantools/allantools.py:tierms", "allantools/allantools.py:mdev", "allantools/allantools.py:mtie", "allantools/allantools.py:calc_adev_phase", "allantools/allantools.py:calc_hdev_phase"]}
{"id": "C113", "title": "How the deviations of one record bound one another", "statement": "On every phase record, count times squared deviation at k tau is at most k^p times that at tau, with p = 1 for adev, 2 for oadev, mdev, tierms, 3 for hdev, 4 for ohdev, tdev; mtie(k tau) <= k mtie(tau). So no record gives a sigma-tau curve steeper than tau^1 for the Allan kind and tau^2 for the Hadamard kind, up to the counts. At the same tau, count times squared deviation of adev is at most that of oadev, of hdev that of ohdev, of mdev that of oadev, of oadev that of totdev; of hdev (ohdev) 4/3 that of adev (oadev); of tdev 2/3 that of tierms; and tau^2 times that of oadev (pdev) 2 (6) times that of tierms; tau oadev <= sqrt 2 mtie. Appending samples never lowers count times squared deviation of adev, oadev, hdev, ohdev, mdev, tdev, pdev, tierms; for the overlapping ones the two parts of a record split anywhere sum to at most the whole, and mtie of the whole is at least that of each part.", "quantifier": "every record, rate > 0, requests, common averaging time and integer factor k", "why_tests_cant": "The inequalities hold for every record, so no finite set of data sets shows them; they relate calls at different taus, on different records and of different functions.", "anchors": ["allantools/allantools.py:adev", "allantools/allantools.py:oadev", "allantools/allantools.py:hdev", "allantools/allantools.py:ohdev", "allantools/allantools.py:mdev", "allantools/allantools.py:tdev", "allantools/allantools.py:pdev", "allantools/allantools.py:tierms", "allantools/allantools.py:mtie", "allantools/allantools.py:totdev"]}
{"id": "C114", "title": "psd2allan as the frequency grid is refined", "statement": "Sample a continuous density S on [0, F] at n points and call psd2allan with that spacing. For a fixed tau = m/F among the averaging times, as n grows the reported deviation converges to sqrt(2 integral_0^F S(f) g(pi f tau) df), g = sin^4 z/z^2 for adev and sin^6 z/z^4 for mdev. For S = h0 (white frequency noise) the limit lies between sqrt(h0/(2 tau) (1 - 1/m)) and sqrt(h0/(2 tau)) for adev, and between sqrt(h0/(4 tau) (1 - 2/m)) and sqrt(h0/(4 tau)) for mdev; for S = h2 f^2 (white phase noise) the adev limit is sqrt(3 h2 F)/(2 pi tau).", "quantifier": "every F > 0, continuous density with positive variance, averaging factor, spacing base, and interpolation routine whose values approach the density", "why_tests_cant": "Convergence is a statement about all fine enough grids; a test evaluates one grid, and its quadrature error hides a wrong weight, limit or factor.", "anchors": ["allantools/allantools.py:psd2allan"]}
{"id": "C115", "title": "Changing the unit by a power of two", "statement": "Multiply every sample by 2^k in binary64: adev, oadev, hdev, ohdev, mdev, tdev, pdev, totdev, theo1, tierms and mtie return the same tau and n (or the same exception) and every deviation and error bar is exactly 2^k times the old one, bit for bit. Rounding does not depend on the unit. Phase samples must be 0 or between 2^-200 and 2^200 in magnitude in both units, frequency samples 0 or between 2^-60 and 2^60, the rate between 2^-40 and 2^40, and the record shorter than 2^40.", "quantifier": "every such record, exponent, rate and taus argument; phase and frequency data", "why_tests_cant": "Equality of every bit of every output under every such change of unit; a test compares a few records with a tolerance, and a threshold, an absolute constant or an underflow shows only at particular magnitudes.", "anchors": ["allantools/allantools.py:adev", "allantools/allantools.py:oadev", "allantools/allantools.py:hdev", "allantools/allantools.py:ohdev", "allantools/allantools.py:mdev", "allantools/allantools.py:tdev", "allantools/allantools.py:pdev", "allantools/allantools.py:totdev", "allantools/allantools.py:theo1", "allantools/allantools.py:tierms", "allantools/allantools.py:mtie", "allantools/allantools.py:frequency2phase"]}
{"id": "C116", "title": "gcodev in floating point", "statement": "For phase records of at most 2^40 samples bounded by M1 and M2 (between 2^-200 and 2^200), a rate between 2^-100 and 2^100 and the same taus, gcodev in binary64 and in exact arithmetic both raise UserWarning or return the same averaging factors and counts, and each squared deviation differs by at most (1+1.001(n+8)u)(a+9uM1/tau)(b+9uM2/tau) - ab, where u=2^-53 and a, b are the exact overlapping Allan deviations of the two records. So the covariance is accurate relative to the product of the two deviations. It is not accurate relative to itself: for two five-sample records of integers the exact value is sqrt(1/6) and the computed one is 0.", "quantifier": "all such pairs of records, rates and taus requests (keywords, or arrays clear of rounding ties)", "why_tests_cant": "Rounding error over all records and lengths, including cancelling products; a test sees a handful of values to a tolerance.", "anchors": ["allantools/allantools.py:gcodev", "allantools/allantools.py:calc_gcodev_phase"]}
{"id": "C117", "title": "Three-cornered hat in floating point", "statement": "Let the deviation function (adev, oadev, hdev or ohdev, or any function whose binary64 and exact runs agree within stated row errors E) be run on three phase records bounded by M <= 2^200. three_cornered_hat_phase in binary64 and in exact arithmetic both raise the same exception (UserWarning from a run, AssertionError for tables of different lengths) or return the taus and counts of the first pair, finite non-negative deviations, and each squared deviation differs by at most half the sum over the three pairs of (1+7u)(d+E)^2 - d^2, plus 2^-1073, d being the exact deviation of the pair and E its error bound. There is no bound relative to the result: for one pair 2^30 times quieter than two equal ones the exact value is sqrt(5/8) and the computed one is 0.", "quantifier": "all such triples of records, rates and taus requests", "why_tests_cant": "Differences of squares cancel: how much of the hat survives rounding depends on the records; a test checks one record to a tolerance.", "anchors": ["allantools/allantools.py:three_cornered_hat_phase"]}
{"id": "C118", "title": "gradev in floating point, with gaps", "statement": "Take a phase record of at most 2^40 samples, each NaN (missing) or a number of size at most M, 2^-400 <= M <= 2^400, a rate between 2^-100 and 2^100, and the same taus. gradev in binary64 and gradev in exact arithmetic on the same gaps both raise the same exception (UserWarning, or the ZeroDivisionError of C73), or return the same averaging factors, n = number of triples x[i], x[i+m], x[i+2m] with no missing member, and deviations that differ by at most 1.001 (n+5) u dev + 9 u M/tau, u = 2^-53. A missing sample therefore never makes a reported deviation NaN, and no row that exact arithmetic keeps is lost or added by rounding.", "quantifier": "all such records and gap patterns, rates, taus requests (keywords, or arrays clear of rounding ties), noise types, confidence levels and scipy/math routines", "why_tests_cant": "Where the gaps fall and how rounding errors add up vary over all records and lengths; the tests run a handful of records with one gap pattern to a tolerance.", "anchors": ["allantools/allantools.py:gradev", "allantools/allantools.py:calc_gradev_phase"]}
{"id": "C119", "title": "What one bad sample, one phase step or one frequency step leaves behind", "statement": "Take a perfect phase record a + b t with one event added at sample k: one wrong sample (size A), a phase jump (size A from sample k on), or a frequency jump (slope A from sample k on). At every averaging factor m whose differences all fit on both sides of the event, count times squared deviation has a closed form independent of a, b and N. Outlier: 3 A^2/tau^2 for oadev and totdev, 10/3 A^2/tau^2 for ohdev, 3 A^2/(m tau^2) for mdev, A^2/m for tdev, 12 (m^2-1) A^2/(m^3 tau^2) for pdev (m > 1); adev and hdev see it only when m divides k and report exactly 0 otherwise. Phase step: A^2/tau^2 for adev and hdev, m A^2/tau^2 for oadev, ohdev and totdev, (m^2+1) A^2/(2 m tau^2) for mdev, (m^2+1) A^2/(6m) for tdev, 6/5 (m^4-1) A^2/(m^3 tau^2) for pdev. Frequency step: (2m^2+1) A^2/(6m) for oadev and totdev, (m^2+1) A^2/(6m) for ohdev, (11m^4+5m^2+4) A^2/(40 m^3) for mdev, tau^2/3 times that for tdev, and for adev and hdev a quadratic in k mod m. With b = 0, count times tierms^2 is 2 A^2 for an outlier and m A^2 for a phase step, and mtie is |A| for both at every tau.", "quantifier": "every a, b, event size, event position, record length, rate > 0 and taus argument; every row whose averaging factor fits around the event", "why_tests_cant": "The formulas hold for all positions, sizes, lengths and averaging factors at once; a test evaluates one record, and an index shifted by one or a window one sample too short changes only the terms touching the event.", "anchors": ["allantools/allantools.py:adev", "allantools/allantools.py:oadev", "allantools/allantools.py:hdev", "allantools/allantools.py:ohdev", "allantools/allantools.py:mdev", "allantools/allantools.py:tdev", "allantools/allantools.py:pdev", "allantools/allantools.py:totdev", "allantools/allantools.py:tierms", "allantools/allantools.py:mtie"]}
{"id": "C120", "title": "b1 and rn of generated noise: expected ratios against b1_theory, rn_theory and the boundaries", "statement": "For a record made by Noise.generateNoise from uncorrelated unit-variance input, cut into N = (nr-1)//af blocks at rate 1, the numerator and denominator of b1 (sample variance of the block frequencies, Allan variance) have expectations in exactly the ratio b1_theory(N, b_to_mu(b)) for white PM (b=0) and white FM (b=-2), every N >= 2 and af. For random walk FM (b=-4) the ratio is (N af^2+1)/(2 af^2+1), which falls short of the table's N/2 by (N/2-1)/(2 af^2+1). From N = 3 blocks on, these ratios lie strictly on the right side of b1_boundary(-1), (-2), (-4), and of b1_boundary(-3) when af >= 2; with three blocks at af = 1 random walk FM lies on the flicker FM side (witness). For rn (modified over ordinary Allan variance) the expected ratio is exactly rn_theory = 1/af for white PM and is below rn_boundary(af, 0) for af >= 2, but for white FM it is (1+1/af^2)/2 where rn_theory says 1, and it lies on the flicker PM side of rn_boundary(af, -1) exactly when 2 <= af <= 19.", "quantifier": "every record length, averaging factor, noise strength and expectation functional under which the inputs are uncorrelated with unit variance", "why_tests_cant": "An expectation over all inputs; a test sees one random record, with a tolerance wide enough to hide a wrong table entry, and cannot cover every number of blocks.", "anchors": ["allantools/ci.py:b1", "allantools/ci.py:rn", "allantools/ci.py:b1_theory", "allantools/ci.py:rn_theory", "allantools/ci.py:b1_boundary", "allantools/ci.py:rn_boundary", "allantools/ci.py:b_to_mu", "allantools/noise_kasdin.py:Noise.generateNoise"]}
{"id": "C121", "title": "iterpink's running sum in binary64", "statement": "The generator never recomputes the sum of the values it holds; every step adds the difference of the new and the replaced value. For deviates bounded by B, every depth and every n with (n+depth+1)(depth+3) <= 2^52, the n-th value in binary64 is finite and differs from the value exact arithmetic gives for the same deviates by at most (n+depth+1)(depth+3) u B, u = 2^-53: the error grows at most linearly with the number of values drawn. It is not repaired as values are replaced: with depth 2 and the deviates 1e16, 1, 0, 0, ... every value from the second on is 0 where exact arithmetic gives 1 (witness, all n).", "quantifier": "every stream of binary64 deviates, depth and number of values within the stated range", "why_tests_cant": "The error accumulates over the whole life of a generator and depends on the deviates drawn; a test draws a few values and compares with nothing.", "anchors": ["allantools/noise.py:iterpink", "allantools/noise.py:pink"]}
{"id": "C122", "title": "An infinite sample given to a realtime object", "statement": "Feed a realtime object with fixed averaging factors a stream in which one phase sample is +inf or -inf and the others are finite (size at most 2^800, at most 2^49 samples, tau0 between 2^-100 and 2^100). The deviations of oadev_realtime and ohdev_realtime are +inf (never NaN) at every averaging factor m for which the sample is a member of a triple i, i+m, i+2m (quadruple for ohdev) inside the samples so far. tdev_realtime reports +inf from the first full window that contains the sample, and NaN as soon as the sliding window meets the sample a second time; its mdev() does the same. No later sample repairs this: the conditions stay true as samples are added, and 3m samples after the bad one all three statistics are lost, tdev as NaN. The pattern of inf and NaN is the one of the batch functions (C111); deviations that do not use the sample are unchanged (C106).", "quantifier": "every stream with one infinite sample, position, sign, list of averaging factors and stream length within the stated range; binary64 and the extended reals", "why_tests_cant": "Whether the running sum holds inf or inf - inf depends on the position of the sample relative to the window at each averaging factor; a test feeds clean streams only.", "anchors": ["allantools/realtime.py:oadev_realtime.update_S", "allantools/realtime.py:ohdev_realtime.update_S", "allantools/realtime.py:tdev_realtime.update_S", "allantools/realtime.py:tdev_realtime.mdev"]}
{"id": "C123", "title": "Joining records", "statement": "Two phase records x and y joined end to end. For oadev, ohdev, mdev, tdev, pdev, mtotdev, ttotdev, htotdev, theo1 and tierms count times squared deviation is additive up to the places that straddle the junction: at averaging factor m the count of the whole is the sum of the two counts plus exactly k(m) places (k = 2m, 3m, 3m-1, 3m-1, 2m, 3m-1, 3m-1, 3m, m, m; each place counts m/2 for theo1), and n d^2 of the whole is the sum of the two plus the terms of those k(m) places, none of which is negative. A record that contains another one therefore never has a smaller n d^2, and reports every averaging time of a list request that the contained one reports. For adev and hdev the same holds, with 2 and 3 straddling terms, when m divides the length of x. For gradev, two records with at least 2m missing samples between them pool exactly: n = n1 + n2 and n d^2 = n1 d1^2 + n2 d2^2, so a gap can be filled with NaN without mixing the two sides.", "quantifier": "every pair of records, rate > 0, common averaging time, and each of the thirteen functions; for gradev every pattern of further gaps and gap length k >= 2m", "why_tests_cant": "A relation between three calls on records of any length; the tests fix single records, so an error at the ends of the record (one term too many or too few) shows only as a small change of a reference value.", "anchors": ["allantools/allantools.py:oadev", "allantools/allantools.py:ohdev", "allantools/allantools.py:mdev", "allantools/allantools.py:tdev", "allantools/allantools.py:pdev", "allantools/allantools.py:mtotdev", "allantools/allantools.py:ttotdev", "allantools/allantools.py:htotdev", "allantools/allantools.py:theo1", "allantools/allantools.py:tierms", "allantools/allantools.py:calc_adev_phase", "allantools/allantools.py:calc_hdev_phase", "allantools/allantools.py:calc_gradev_phase"]}
{"id": "C124", "title": "Phase records held in an integer array", "statement": "A phase record of integers (Python ints, or counts read from an instrument) reaches adev, oadev, hdev, ohdev, mdev, tdev and tierms as an int64 array, and the squared differences and (but for tierms) their sum are formed in int64, modulo 2^64, with no error. In the first six, for every int64 record the answer has the same taus and counts (or the same exception) as for the same numbers as floats, and each deviation is decided by Q = w n d^2, the exact sum of squares (w = 2 tau^2 for adev and oadev, 6 tau^2 for hdev and ohdev, 2 m^2 tau^2 for mdev, 6 m^2 for tdev; d, n the row of the float record): with R = Q - 2^64 k in [-2^63, 2^63), the reported deviation is NaN if R < 0 and the d' >= 0 with w n d'^2 = R otherwise. So the row is right if Q < 2^63 and is never right beyond: NaN, or strictly too small. Samples of at most B counts are safe when 16 N B^2 < 2^63 (adev, oadev), 64 N B^2 < 2^63 (hdev, ohdev), 16 N (m B)^2 < 2^63 (mdev, tdev). That an integer record always gives what the same numbers give as floats is refuted: one step of 3037000500 counts makes oadev NaN, one outlier of 2^32 counts makes it exactly 0. tierms keeps each squared change over m samples modulo 2^64 and averages them as floats: it is right if no change exceeds 3037000499 counts, and NaN or strictly too small if one does. Integer frequency data are not affected: all seven functions return what they return for the same numbers as floats.", "quantifier": "every int64 record, rate > 0, tau request, averaging factor; exact arithmetic after the conversion of the sum", "why_tests_cant": "The tests use float records; the failure needs large integers, raises nothing, and at some sizes gives a plausible small number.", "anchors": ["allantools/allantools.py:calc_adev_phase", "allantools/allantools.py:calc_hdev_phase", "allantools/allantools.py:mdev", "allantools/allantools.py:tdev", "allantools/allantools.py:adev", "allantools/allantools.py:oadev", "allantools/allantools.py:hdev", "allantools/allantools.py:ohdev", "allantools/allantools.py:tierms", "allantools/allantools.py:frequency2phase", "allantools/allantools.py:input_to_phase", "allantools/allantools.py:tau_generator"]}
{"id": "C125", "title": "Phase records held in an int32 array", "statement": "A phase record of 32-bit integers reaches adev, oadev, hdev and ohdev as an int32 array: the differences and their squares are formed modulo 2^32, with no error, and only their sum is 64 bits wide. For every int32 record of fewer than 2^32 samples the answer has the same taus and counts (or the same exception) as for the same numbers as floats, and each deviation is the one obtained from the squared second (third) differences each reduced into [-2^31, 2^31), NaN if their sum is negative. So a row at m samples is right if no difference over m samples exceeds 46340 counts, and if one of those used does, it is NaN or strictly too small. Integer frequency data are not affected. That an int32 record gives what the same numbers give as floats is refuted: one step of 46341 counts makes oadev NaN, one of 65536 counts makes it exactly 0.", "quantifier": "every int32 record of fewer than 2^32 samples, rate > 0, tau request, averaging factor; exact arithmetic after the conversion of the sum", "why_tests_cant": "The tests use float records; the limit of 46340 counts is reached by ordinary instrument data, raises nothing, and can give a plausible small number.", "anchors": ["allantools/allantools.py:calc_adev_phase", "allantools/allantools.py:calc_hdev_phase", "allantools/allantools.py:adev", "allantools/allantools.py:oadev", "allantools/allantools.py:hdev", "allantools/allantools.py:ohdev", "allantools/allantools.py:frequency2phase", "allantools/allantools.py:input_to_phase"]}
