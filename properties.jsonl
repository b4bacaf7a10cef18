{"id": "C01", "title": "median returns the middle order statistic(s)", "statement": "For a non-empty sequence of totally ordered values, median returns (m, n) where n is the number of values and m is the middle element of the sorted sequence when n is odd, and the half-sum of the two middle elements of the sorted sequence when n is even. For the empty sequence it returns (0, 0).", "quantifier": "every finite sequence (any length, any order, any repetition pattern) over any totally ordered numeric type", "why_tests_cant": "the recursion partitions around data-dependent pivots; a test only exercises a few pivot histories and duplicate patterns", "anchors": ["sci-rs/src/stats.rs:quickselect", "sci-rs/src/stats.rs:median"]}
{"id": "C02", "title": "median terminates without panicking on every input", "statement": "median returns normally for every input sequence, including sequences containing values that compare neither less, equal nor greater (NaN).", "quantifier": "every finite sequence over any type whose < and > are irreflexive and mutually exclusive (IEEE floats included)", "why_tests_cant": "termination and absence of an out-of-range index must hold for every recursion history; NaN breaks the usual order laws tests assume", "anchors": ["sci-rs/src/stats.rs:quickselect", "sci-rs/src/stats.rs:median"]}
{"id": "C03", "title": "median does not depend on the order of the samples", "statement": "If two sequences of totally ordered values are permutations of each other, median returns the same pair for both.", "quantifier": "every sequence and every permutation of it", "why_tests_cant": "n! orderings; the pivot choice depends on the position, so each ordering follows a different path", "anchors": ["sci-rs/src/stats.rs:median"]}
{"id": "C04", "title": "median of integers lies between the smallest and the largest sample", "statement": "For a non-empty sequence of values of a primitive integer type, median returns normally and its value is between the minimum and the maximum of the sequence.", "quantifier": "every primitive integer type, every non-empty sequence of its values", "why_tests_cant": "the even case adds two samples; overflow occurs only for large magnitudes", "anchors": ["sci-rs/src/stats.rs:median"]}
{"id": "C05", "title": "mean is the arithmetic mean", "statement": "mean returns (sum/n, n) for a non-empty sequence and (0,0) for the empty one; in exact arithmetic it is independent of the order of samples, lies between minimum and maximum, and commutes with affine maps.", "quantifier": "every finite sequence of samples", "why_tests_cant": "all lengths and values", "anchors": ["sci-rs/src/stats.rs:mean"]}
{"id": "C06", "title": "variance and standard deviation", "statement": "In exact arithmetic variance returns the population variance: it equals mean of squares minus square of mean, is non-negative, is zero exactly when all samples are equal, is unchanged by adding a constant and multiplied by c^2 when samples are multiplied by c; stdev is its non-negative square root; both report the sample count, and (0,0) on an empty sequence.", "quantifier": "every finite sequence of samples", "why_tests_cant": "algebraic identities over unbounded sequences", "anchors": ["sci-rs/src/stats.rs:variance", "sci-rs/src/stats.rs:stdev"]}
{"id": "C07", "title": "zscore standardises", "statement": "zscore yields exactly one value per sample, (y_i - mean)/stdev; if the samples are not all equal, the yielded sequence has mean 0 and variance 1, and the result is unchanged under y -> a*y+b with a>0 (exact arithmetic).", "quantifier": "every finite sequence", "why_tests_cant": "normalisation must hold for every data set", "anchors": ["sci-rs/src/stats.rs:zscore"]}
{"id": "C08", "title": "median absolute deviation and modified z-score", "statement": "median_abs_deviation returns the median of |y_i - median(y)| and the count, is non-negative, invariant under y -> y+b and scaled by |a| under y -> a*y; mod_zscore yields one value 0.6745*(y_i-median)/MAD per sample and is invariant under y -> a*y+b, a>0.", "quantifier": "every finite non-empty sequence, every a, b", "why_tests_cant": "robust statistics laws quantify over all data sets and affine maps; they rest on order-statistics equivariance", "anchors": ["sci-rs/src/stats.rs:median_abs_deviation", "sci-rs/src/stats.rs:mod_zscore"]}
{"id": "C09", "title": "autocorr is a normalised autocorrelation", "statement": "For samples that are not all equal, autocorr at lag 0 is 1, its absolute value at every lag is at most 1, and it is 0 for every lag not smaller than the length (exact arithmetic).", "quantifier": "every sequence and every lag k", "why_tests_cant": "Cauchy-Schwarz bound over all data", "anchors": ["sci-rs/src/stats.rs:autocorr"]}
{"id": "C10", "title": "autocorr_fast32 computes every requested lag in full", "statement": "If N >= M + SKIP, autocorr_fast32 leaves in x[i] the sum over j of y[j]*y[j+h] for h = SKIP+i (all N-h terms, after subtracting the mean from y in place), returns the variance of y, and panics otherwise.", "quantifier": "every N, M, SKIP and all samples", "why_tests_cant": "the kernel works in tiles of 4 with a remainder; the remainder length depends on N-h", "anchors": ["sci-rs/src/stats.rs:autocorr_fast32"]}
{"id": "C11", "title": "rms_fast32 is the root mean square", "statement": "rms_fast32 returns sqrt((sum of y_i^2)/N) for every N>0, whatever N modulo the tile size (exact arithmetic).", "quantifier": "every array length and content", "why_tests_cant": "tile/remainder split for every length", "anchors": ["sci-rs/src/stats.rs:rms_fast32"]}
{"id": "C12", "title": "lag_diff and rmssd", "statement": "lag_diff yields y[i+1]-y[i] for i=0..n-2 (nothing for n<2), its terms sum to last-first in exact arithmetic, and rmssd is the square root of the mean of the squares of these terms (0 when n<2).", "quantifier": "every finite sequence", "why_tests_cant": "all lengths", "anchors": ["sci-rs/src/stats.rs:lag_diff", "sci-rs/src/stats.rs:rmssd"]}
{"id": "C13", "title": "factorial is exact whenever n! fits", "statement": "For each primitive integer type T: n.factorial() is 0 for n<0; is n! when n! is representable in T; and panics (overflow checks on) when n! is not representable.", "quantifier": "every primitive integer type, every value n of it", "why_tests_cant": "table + loop split at 17, over types up to 128 bit", "anchors": ["sci-rs/src/special/factorial.rs:primint_factorial", "sci-rs/src/special/factorial.rs:partial_product"]}
{"id": "C14", "title": "factorial2 is exact whenever n!! fits", "statement": "For each primitive integer type T: n.factorial2() is 0 for n<0; is n!! when representable; panics (overflow checks on) otherwise.", "quantifier": "every primitive integer type, every value n of it", "why_tests_cant": "table + parity-dependent loop", "anchors": ["sci-rs/src/special/factorial.rs:primint_factorial2"]}
{"id": "C15", "title": "factorialk is exact whenever the k-factorial fits", "statement": "For each primitive integer type T and k>0: n.factorialk(k) is 0 for n<0 and is n(n-k)(n-2k)... (down to the last positive factor; 1 for n=0) when that value is representable in T; k=1 and k=2 agree with factorial and factorial2; k<=0 panics.", "quantifier": "every primitive integer type, every n, every k", "why_tests_cant": "the loop counter itself can overflow for large k; only reached for particular (n,k,type)", "anchors": ["sci-rs/src/special/factorial.rs:primint_factorialk", "sci-rs/src/special/factorial.rs:partial_product"]}
{"id": "C16", "title": "comb is the binomial coefficient whenever it fits", "statement": "n.comb(k) is 0 when n<0, k<0 or k>n, and otherwise n!/(k!(n-k)!) whenever that value is representable in the type.", "quantifier": "every primitive integer type, every n, k", "why_tests_cant": "intermediate products may overflow although the result fits", "anchors": ["sci-rs/src/special/combinatorics.rs:primint_comb"]}
{"id": "C17", "title": "comb_rep counts multisets", "statement": "n.comb_rep(k) is 0 when n<0 or k<0 (or n=0), and otherwise (n+k-1)!/(k!(n-1)!) whenever representable; the documented claim that it is 0 whenever n<k is to be checked too.", "quantifier": "every primitive integer type, every n, k", "why_tests_cant": "overflow and corner cases", "anchors": ["sci-rs/src/special/combinatorics.rs:primint_comb_rep"]}
{"id": "C18", "title": "perm counts k-permutations", "statement": "n.perm(k) is 0 when n<0, k<0 or k>n, and otherwise n!/(n-k)! whenever representable.", "quantifier": "every primitive integer type, every n, k", "why_tests_cant": "range endpoints n+1 may overflow", "anchors": ["sci-rs/src/special/combinatorics.rs:primint_perm"]}
{"id": "C19", "title": "stirling2 counts set partitions", "statement": "n.stirling2(k) is 0 when n<0, k<0 or k>n, and otherwise the Stirling number of the second kind (the unique numbers with x^n = sum_k S(n,k) x(x-1)...(x-k+1)) whenever representable; panics (overflow checks on) otherwise.", "quantifier": "every primitive integer type, every n, k", "why_tests_cant": "doubly recursive; unbounded arguments", "anchors": ["sci-rs/src/special/combinatorics.rs:primint_stirling2"]}
{"id": "C20", "title": "Chebyshev series evaluation behind i0/i0e", "statement": "The evaluator returns the Chebyshev series with the given coefficients (last one is order zero, taken with weight 1/2) at x/2 (exact arithmetic); empty coefficients give 0.", "quantifier": "every coefficient list, every x", "why_tests_cant": "the error term is invisible for the two hard-coded tables used in tests", "anchors": ["sci-rs/src/special/xsf/chbevl.rs:chbevl"]}
{"id": "C21", "title": "i0 and i0e: parity, scaling, element-wise lifting", "statement": "i0 and i0e are even functions, i0(x) = exp(|x|)*i0e(x) in exact arithmetic, and on Vec / ArrayD they act element by element keeping length and order.", "quantifier": "every x; every vector", "why_tests_cant": "all inputs incl. both sides of the branch at 8", "anchors": ["sci-rs/src/special/xsf/i0.rs:i0,i0e", "sci-rs/src/special/bessel.rs:Bessel"]}
{"id": "C22", "title": "companion matrix has the polynomial's roots as eigenvalues", "statement": "For coefficients a_0..a_{m-1} with a_0 != 0 and m>=2, companion_dyn returns an (m-1)x(m-1) matrix such that, for every scalar r, r is an eigenvalue exactly when sum a_i r^(m-1-i) = 0.", "quantifier": "every degree and coefficient list", "why_tests_cant": "all degrees", "anchors": ["sci-rs/src/linalg/companion.rs:companion_dyn"]}
{"id": "C23", "title": "companion_dyn never writes outside the matrix", "statement": "For every iterator and every m, companion_dyn either panics or writes only inside the (m-1)x(m-1) matrix it returns.", "quantifier": "every iterator length and every m", "why_tests_cant": "unchecked writes; needs every (length, m)", "anchors": ["sci-rs/src/linalg/companion.rs:companion_dyn"]}
{"id": "C24", "title": "sosfilt can be resumed", "statement": "Filtering x followed by y with the same sections (state carried in them) gives exactly the outputs and final state of filtering the concatenation; output length equals input length and coefficients are never changed.", "quantifier": "every number type (bit-exact), every section count, every input and every split into blocks", "why_tests_cant": "all histories of block sizes", "anchors": ["sci-rs/src/signal/filter/sosfilt.rs:sosfilt_dyn"]}
{"id": "C25", "title": "all sosfilt entry points agree", "statement": "sosfilt_dyn, sosfilt_st, repeated sosfilt_item and sosfilt_fast32_st (and sosfilt_ifast32_st on samples converted to f32) give identical outputs and identical final section state; the slice versions panic exactly when the output slice length differs from the input length, and otherwise overwrite every output slot.", "quantifier": "every number of sections, every input length, every state", "why_tests_cant": "specialised unrolled arms for particular section counts and tile sizes", "anchors": ["sci-rs/src/signal/filter/sosfilt.rs"]}
{"id": "C26", "title": "a section implements its difference equation", "statement": "With a0=1 and zero state, a one-section filter outputs the unique y with y[n] = b0 x[n] + b1 x[n-1] + b2 x[n-2] - a1 y[n-1] - a2 y[n-2]. For general a0 the documented transfer function means a0 y[n] = ...", "quantifier": "every coefficient set, input and index", "why_tests_cant": "unbounded horizon", "anchors": ["sci-rs/src/signal/filter/sosfilt.rs:sosfilt_item", "sci-rs/src/signal/filter/design/sos.rs:Sos"]}
{"id": "C27", "title": "cascade, linearity, causality", "statement": "Filtering with sections s1++s2 equals filtering with s1 and then filtering the result with s2 (bit-exact); the filter is linear in (input, state) and shift-invariant from zero state (exact arithmetic); output i depends only on inputs 0..i.", "quantifier": "every cascade, input, scalar", "why_tests_cant": "superposition over unbounded signals", "anchors": ["sci-rs/src/signal/filter/sosfilt.rs"]}
{"id": "C28", "title": "lfilter_zi gives the step steady state", "statement": "For b,a of equal length m>=2 with a[0] != 0 and sum(a) != 0, filtering the constant 1 with the transposed direct form starting from lfilter_zi_dyn(b,a) keeps the state constant and outputs the DC gain sum(b)/sum(a) at every step. Inputs of different lengths, with fewer than two coefficients, or with a denominator that is zero throughout, are refused; leading zeros of the denominator are dropped, the numerator kept, and the state is that of the filter so obtained.", "quantifier": "every order and coefficients (exact arithmetic)", "why_tests_cant": "all orders", "anchors": ["sci-rs/src/signal/filter/lfilter_zi.rs:lfilter_zi_dyn"]}
{"id": "C29", "title": "sosfilt_zi gives the step steady state of the cascade", "statement": "After sosfilt_zi_dyn, filtering a constant c with all delays multiplied by c outputs, at every step, c times the product of the section DC gains; coefficients are unchanged.", "quantifier": "every cascade with a0=1 and sum(a)!=0 in every section, every c, every duration", "why_tests_cant": "all cascades and durations", "anchors": ["sci-rs/src/signal/filter/sosfilt_zi.rs:sosfilt_zi_dyn"]}
{"id": "C30", "title": "odd_ext_dyn is the odd extension", "statement": "For n smaller than the extended dimension, odd_ext_dyn returns the input in the middle and, at distance d<=n outside either end, twice the end value minus the value d inside; it touches no element outside either matrix; n=0 returns the input; n >= dimension or axis >= 2 panics.", "quantifier": "every matrix, n and axis", "why_tests_cant": "unchecked index arithmetic for all shapes", "anchors": ["sci-rs/src/signal/filter/ext.rs:odd_ext_dyn"]}
{"id": "C31", "title": "pad honours each pad type", "statement": "pad returns (edge, extension) with edge = padlen or 3*ntaps (0 for Pad::None), panics iff the padded dimension is not larger than edge or axis>=2, and for each pad type extends as its documentation says.", "quantifier": "every pad type, matrix, padlen, ntaps", "why_tests_cant": "all combinations", "anchors": ["sci-rs/src/signal/filter/ext.rs:pad"]}
{"id": "C32", "title": "sosfiltfilt_dyn keeps the length and ignores the delay state", "statement": "For sections that each have a non-zero denominator coefficient, sosfiltfilt_dyn returns exactly as many samples as it is given when there are more than 3*ntaps of them (ntaps = 2*sections+1-min(#zero b2,#zero a2)) and panics otherwise; its result never depends on the delay values stored in the sections.", "quantifier": "every cascade and input", "why_tests_cant": "all lengths", "anchors": ["sci-rs/src/signal/filter/sosfiltfilt.rs:sosfiltfilt_dyn"]}
{"id": "C33", "title": "sosfiltfilt_dyn: DC gain and linearity", "statement": "On a constant signal c the result is constant c*g^2, g the product of DC gains; the result is linear in the input (exact arithmetic).", "quantifier": "every cascade with a0=1 and sum(a) != 0, every long enough input", "why_tests_cant": "all signals", "anchors": ["sci-rs/src/signal/filter/sosfiltfilt.rs:sosfiltfilt_dyn"]}
{"id": "C34", "title": "Sos::from_scipy_dyn decodes rows of six", "statement": "from_scipy_dyn(order, v) panics unless len(v) = 6*order, and otherwise returns order sections whose coefficients concatenated give back v, with zero delays.", "quantifier": "every order and vector", "why_tests_cant": "all sizes", "anchors": ["sci-rs/src/signal/filter/design/sos.rs:from_scipy_dyn"]}
{"id": "C35", "title": "savgol_filter_dyn shape and edges", "statement": "savgol_filter_dyn panics iff the window is even or smaller than polyorder+2 (argument check); otherwise it returns one value per sample, and value i is the FIR combination of the samples at i-h..i+h with indices clamped to the ends.", "quantifier": "every window, order and sequence", "why_tests_cant": "all lengths, including shorter than the window", "anchors": ["sci-rs/src/signal/filter/savgol_filter.rs:savgol_filter_dyn"]}
{"id": "C36", "title": "Savitzky-Golay reproduces polynomials", "statement": "When the least-squares solver solves the consistent system exactly, filtering samples of a polynomial of degree <= polyorder taken with spacing delta returns its deriv-th derivative at every sample at least half a window from the ends; deriv>polyorder gives zero coefficients; the system is always consistent.", "quantifier": "every window, order, derivative, spacing, polynomial", "why_tests_cant": "all polynomials and windows", "anchors": ["sci-rs/src/signal/filter/savgol_filter.rs:savgol_coeffs_dyn"]}
{"id": "C37", "title": "convolve (Full) is the linear convolution", "statement": "For non-empty inputs, Full convolve returns in1.len()+in2.len()-1 values and value i is sum_j in1[j] in2[i-j] (exact arithmetic, FFT = DFT).", "quantifier": "every pair of signals", "why_tests_cant": "every length: zero-padding to a power of two must avoid circular wrap-around", "anchors": ["sci-rs/src/signal/convolve.rs:fftconvolve"]}
{"id": "C38", "title": "convolve Valid and Same", "statement": "Valid returns the max-min+1 fully overlapping values and Same the central in1.len() values of the full convolution.", "quantifier": "every pair of signals", "why_tests_cant": "slicing arithmetic for every size pair", "anchors": ["sci-rs/src/signal/convolve.rs:fftconvolve"]}
{"id": "C39", "title": "correlate is the cross-correlation", "statement": "Full correlate returns at index k the sum over i of in1[i]*in2[i-k+len2-1].", "quantifier": "every pair of signals", "why_tests_cant": "all sizes", "anchors": ["sci-rs/src/signal/convolve.rs:correlate"]}
{"id": "C40", "title": "resample returns n samples; same length is the identity", "statement": "resample(x,n) returns exactly n values; resample(x, x.len()) returns x (exact arithmetic).", "quantifier": "every signal and n", "why_tests_cant": "odd/even bin bookkeeping for all sizes", "anchors": ["sci-rs/src/signal/resample.rs:resample"]}
{"id": "C41", "title": "resample preserves constants and interpolates", "statement": "Resampling a constant signal gives the same constant; upsampling by an integer factor keeps the original samples at the multiples of the factor.", "quantifier": "every signal, every n", "why_tests_cant": "all sizes", "anchors": ["sci-rs/src/signal/resample.rs:resample"]}
{"id": "C42", "title": "square is a 2*pi-periodic square wave", "statement": "For duty in [0,1], square gives +1 where t mod 2*pi < 2*pi*duty and -1 elsewhere (so always +1 for duty 1, -1 for duty 0), element by element; duty outside [0,1] panics.", "quantifier": "every t and duty", "why_tests_cant": "all real t, boundary points, rounding of tiny negative t", "anchors": ["sci-rs/src/signal/wave/mod.rs:square"]}
{"id": "C43", "title": "poly_dyn expands prod (x - z_i)", "statement": "poly_dyn returns the len+1 coefficients, highest power first, of the monic polynomial with the given roots; taking real parts is only done when it changes nothing.", "quantifier": "every root list", "why_tests_cant": "all degrees", "anchors": ["sci-rs/src/signal/filter/design/zpk2tf.rs:poly_dyn"]}
{"id": "C44", "title": "zpk2tf_dyn preserves the transfer function", "statement": "For conjugate-closed zeros and poles, b and a returned by zpk2tf_dyn satisfy b(x)/a(x) = k*prod(x-z)/prod(x-p), coefficients highest power first.", "quantifier": "every zpk and order", "why_tests_cant": "all degrees; zero padding/truncation to order+1", "anchors": ["sci-rs/src/signal/filter/design/zpk2tf.rs:zpk2tf_dyn"]}
{"id": "C45", "title": "zpk2sos_dyn (digital) preserves the transfer function", "statement": "For a digital filter with conjugate-closed zeros and poles, zpk2sos_dyn returns ceil(n/2) sections, each with a0=1, whose product of transfer functions equals k*prod(z-z_i)/prod(z-p_i) (up to the padding zeros/poles at the origin).", "quantifier": "every zpk", "why_tests_cant": "the pairing loop removes poles/zeros in a data-dependent order", "anchors": ["sci-rs/src/signal/filter/design/zpk2sos.rs:zpk2sos_dyn"]}
{"id": "C46", "title": "zpk2sos_dyn (analog) preserves the transfer function", "statement": "For an analog filter with at least as many poles as zeros, zpk2sos_dyn returns sections whose product equals k*prod(s-z_i)/prod(s-p_i).", "quantifier": "every analog zpk", "why_tests_cant": "special cases of the pairing loop", "anchors": ["sci-rs/src/signal/filter/design/zpk2sos.rs:zpk2sos_dyn"]}
{"id": "C47", "title": "bilinear_zpk_dyn is the bilinear substitution", "statement": "For conjugate-closed zpk with no zero or pole at 2fs, the returned filter satisfies H_d(z) = H_a(2 fs (z-1)/(z+1)), has as many zeros as poles, and maps poles with negative real part strictly inside the unit circle (and only those); improper filters panic.", "quantifier": "every zpk, fs, z", "why_tests_cant": "all degrees", "anchors": ["sci-rs/src/signal/filter/design/bilinear_zpk.rs:bilinear_zpk_dyn"]}
{"id": "C48", "title": "lp2lp_zpk_dyn substitutes s/wo", "statement": "H'(s) = H(s/wo) for wo != 0; numbers of zeros and poles are unchanged; improper filters panic.", "quantifier": "every zpk, wo, s", "why_tests_cant": "all degrees", "anchors": ["sci-rs/src/signal/filter/design/lp2lp_zpk.rs:lp2lp_zpk_dyn"]}
{"id": "C49", "title": "lp2hp_zpk_dyn substitutes wo/s", "statement": "H'(s) = H(wo/s); improper filters panic.", "quantifier": "every zpk with no zero or pole at the origin, wo, s", "why_tests_cant": "all degrees; tests only use special zeros", "anchors": ["sci-rs/src/signal/filter/design/lp2hp_zpk.rs:lp2hp_zpk_dyn"]}
{"id": "C50", "title": "lp2bp_zpk_dyn substitutes (s^2+wo^2)/(s bw)", "statement": "H'(s) = H((s^2+wo^2)/(s bw)); zeros and poles double (plus degree zeros at the origin).", "quantifier": "every zpk, wo, bw, s", "why_tests_cant": "all degrees", "anchors": ["sci-rs/src/signal/filter/design/lp2bp_zpk.rs:lp2bp_zpk_dyn"]}
{"id": "C51", "title": "lp2bs_zpk_dyn substitutes s bw/(s^2+wo^2)", "statement": "H'(s) = H(s bw/(s^2+wo^2)).", "quantifier": "every zpk with no zero or pole at the origin, wo, bw, s", "why_tests_cant": "all degrees; tests only use special zeros", "anchors": ["sci-rs/src/signal/filter/design/lp2bs_zpk.rs:lp2bs_zpk_dyn"]}
{"id": "C52", "title": "Butterworth prototype", "statement": "The analog Butterworth design of order N with cutoff 1 has no zeros, N poles on the unit circle in the open left half plane, closed under conjugation, and |H(jw)|^2 = 1/(1+w^(2N)).", "quantifier": "every order N >= 1, every frequency w", "why_tests_cant": "all orders", "anchors": ["sci-rs/src/signal/filter/design/iirfilter.rs:buttap_dyn"]}
{"id": "C53", "title": "Chebyshev I prototype", "statement": "cheb1ap_dyn(N, rp) has N poles in the open left half plane, closed under conjugation, and |H(jw)|^2 = 1/(1+eps^2 T_N(w)^2) with eps^2 = 10^(rp/10)-1.", "quantifier": "every N, rp>0, w", "why_tests_cant": "all orders", "anchors": ["sci-rs/src/signal/filter/design/iirfilter.rs:cheb1ap_dyn"]}
{"id": "C54", "title": "Chebyshev II prototype", "statement": "cheb2ap_dyn(N, rs) has N poles in the open left half plane, closed under conjugation, unit DC gain, and |H(jw)|^2 = 1/(1+1/(eps^2 T_N(1/w)^2)), eps^2 = 1/(10^(rs/10)-1).", "quantifier": "every N >= 1, rs>0, w (w != 0 for the formula; both sides 0 where T_N(1/w) = 0)", "why_tests_cant": "all orders", "anchors": ["sci-rs/src/signal/filter/design/iirfilter.rs:cheb2ap_dyn"]}
{"id": "C55", "title": "iirfilter_dyn argument checking", "statement": "iirfilter_dyn panics exactly for: more than 2 frequencies, fs with analog, non-positive frequency, non-increasing pair, negative rp or rs, digital frequency >= Nyquist, number of frequencies not matching the band type, missing ripple for Chebyshev filters, and the unimplemented filter types.", "quantifier": "every argument combination", "why_tests_cant": "decision logic over many options", "anchors": ["sci-rs/src/signal/filter/design/iirfilter.rs:iirfilter_dyn"]}
{"id": "C56", "title": "cheby2_dyn designs Chebyshev II filters", "statement": "cheby2_dyn returns a filter for every valid order, stopband attenuation and critical frequencies.", "quantifier": "all arguments", "why_tests_cant": "needs every argument combination", "anchors": ["sci-rs/src/signal/filter/design/iirfilter.rs:cheby2_dyn,iirfilter_dyn"]}
{"id": "C57", "title": "digital Butterworth magnitude", "statement": "butter_dyn with output zpk returns a digital filter with |H(e^{i theta})|^2 = 1/(1+(v)^(2N)), v the band-transformed pre-warped frequency; hence gain 1 at the pass-band reference (DC, Nyquist, centre, DC for low/high/band/bandstop) and half power at each critical frequency.", "quantifier": "every order N >= 1, every valid critical frequency, every theta", "why_tests_cant": "end-to-end composition for all orders", "anchors": ["sci-rs/src/signal/filter/design/butter.rs:butter_dyn", "sci-rs/src/signal/filter/design/iirfilter.rs:iirfilter_dyn"]}
{"id": "C58", "title": "digital Butterworth designs are stable", "statement": "All poles of the filter returned by butter_dyn (digital, zpk) lie strictly inside the unit circle, poles and zeros are closed under conjugation and as many zeros as poles are returned.", "quantifier": "every order, band type and valid frequencies", "why_tests_cant": "all orders", "anchors": ["sci-rs/src/signal/filter/design/butter.rs:butter_dyn"]}
{"id": "C59", "title": "requested representation and defaults", "statement": "iirfilter_dyn returns the representation requested (Ba by default); butter_dyn and cheby1_dyn design a lowpass filter when no band type is given, as documented.", "quantifier": "all arguments", "why_tests_cant": "option combinations", "anchors": ["sci-rs/src/signal/filter/design/iirfilter.rs", "sci-rs/src/signal/filter/design/butter.rs"]}
{"id": "C60", "title": "Integer mean stays within the samples' range", "statement": "For a non-empty sequence of values of a primitive integer type, mean returns normally the truncated quotient of the sum by the count, hence a value between the minimum and the maximum.", "quantifier": "every primitive integer type, every non-empty sequence of its values", "why_tests_cant": "overflow of the running sum and of the count depends on the length and magnitude of the data; tests use a few small samples", "anchors": ["sci-rs/src/stats.rs: mean"]}
{"id": "C61", "title": "a cascade implements the product of its sections' transfer functions", "statement": "From zero state and with a0=1 in every section, sosfilt_dyn's output y satisfies D(z)y = N(z)x at every index, where N and D are the products of the sections' numerator and denominator polynomials in the unit delay.", "quantifier": "every number of sections, every coefficients with a0=1, every input and index (exact arithmetic)", "why_tests_cant": "all orders and unbounded signals", "anchors": ["sci-rs/src/signal/filter/sosfilt.rs:sosfilt_dyn"]}
{"id": "C62", "title": "i0e is its documented two-branch Chebyshev series", "statement": "For every x, i0e(x) in exact arithmetic is within 1e-17 of the Chebyshev series of the source tables (A at x/2-2 for |x|<=8, B at 32/|x|-2 over sqrt|x| beyond); i0e(0) is within 6e-18 of 1, and the two branches agree at |x| = 8 within 1e-17 (no visible jump).", "quantifier": "every real x", "why_tests_cant": "a real interval; the seam at 8", "anchors": ["sci-rs/src/special/xsf/i0.rs", "sci-rs/src/special/xsf/chbevl.rs"]}
{"id": "C63", "title": "resample is linear, with a closed-form interpolation kernel", "statement": "For every signal and every n, resample(x,n)[m] = (1/L) sum_j x[j] K(m/n - j/L), where K sums cos(2*pi*k*u) over the frequencies k = -h .. h-1 with h = floor(min(L,n)/2); hence resample(c*x+d*y, n) = c*resample(x,n)+d*resample(y,n).", "quantifier": "every signal, every n, every scalars (exact arithmetic, FFT = DFT)", "why_tests_cant": "all sizes and all real signals", "anchors": ["sci-rs/src/signal/resample.rs:resample"]}
{"id": "C64", "title": "digital Chebyshev I designs", "statement": "cheby1_dyn (digital, zpk, explicit band type) returns a stable, conjugate-closed filter with as many zeros as poles and |H(e^{i theta})|^2 = 1/(1+(10^(rp/10)-1) T_N(v)^2), v the band-transformed pre-warped frequency; hence gain between -rp dB and 0 dB in the pass band, at most -rp dB outside, exactly -rp dB at each critical frequency.", "quantifier": "every order N >= 1, rp > 0, band type, valid critical frequencies, theta", "why_tests_cant": "end-to-end composition for all orders and frequencies", "anchors": ["sci-rs/src/signal/filter/design/iirfilter.rs:cheby1_dyn,cheb1ap_dyn,iirfilter_dyn"]}
{"id": "C65", "title": "Ba and Zpk outputs of a design agree", "statement": "For digital Butterworth and Chebyshev I designs, the coefficients returned with Ba output have leading denominator coefficient 1 and the same transfer function as the zeros, poles and gain returned with Zpk output for the same arguments.", "quantifier": "every order, band type, valid critical frequencies, point other than 0 and the poles", "why_tests_cant": "all degrees; padding to a fixed length", "anchors": ["sci-rs/src/signal/filter/design/iirfilter.rs:iirfilter_dyn", "sci-rs/src/signal/filter/design/zpk2tf.rs:zpk2tf_dyn"]}
{"id": "C66", "title": "analog Butterworth designs of every band type", "statement": "butter_dyn (analog, zpk) returns a stable proper filter with |H(jw)|^2 = 1/(1+v^(2N)), v = w/w0, w0/w, (w0 w1-w^2)/(w(w1-w0)) or its inverse; half power at each critical frequency.", "quantifier": "every order N >= 1, band type, positive increasing critical frequencies, w", "why_tests_cant": "all orders and frequencies", "anchors": ["sci-rs/src/signal/filter/design/butter.rs:butter_dyn", "sci-rs/src/signal/filter/design/iirfilter.rs:iirfilter_dyn"]}
{"id": "C67", "title": "Sos and Zpk outputs of a digital design agree", "statement": "For digital Butterworth and Chebyshev I designs whose zeros and poles are either real or clear of the real axis by the relative tolerance 100 epsilon, the sections returned with Sos output number ceil(n/2), have a0 = 1 and zero state, multiply to the transfer function described by the Zpk output for the same arguments, and have all their denominator roots inside the unit circle.", "quantifier": "every order, band type, valid critical frequencies, point other than 0 and the poles", "why_tests_cant": "all orders and frequencies; the pairing order depends on the data", "anchors": ["sci-rs/src/signal/filter/design/iirfilter.rs:iirfilter_dyn", "sci-rs/src/signal/filter/design/zpk2sos.rs:zpk2sos_dyn"]}
{"id": "C68", "title": "Sos output of an analog design represents the filter", "statement": "For an analog Butterworth low-pass design the sections returned with Sos output multiply to the transfer function described by the Zpk output for the same arguments.", "quantifier": "every order N >= 1, critical frequency w > 0", "why_tests_cant": "all orders; special cases of the pairing loop", "anchors": ["sci-rs/src/signal/filter/design/iirfilter.rs:iirfilter_dyn", "sci-rs/src/signal/filter/design/zpk2sos.rs:zpk2sos_dyn"]}
{"id": "C69", "title": "stable sections: bounded output and fading memory", "statement": "If every section has a0 = 1 and every root of its denominator lies inside the unit circle, then sosfilt_dyn maps inputs bounded by M to outputs bounded by G (M + size of the delay state) with a G that depends on the coefficients only, and two runs on the same input from different delay states approach each other at a geometric rate.", "quantifier": "every stable cascade, delay state, input length and bounded input", "why_tests_cant": "the bound must hold for inputs of every length; a test sees finitely many samples", "anchors": ["sci-rs/src/signal/filter/sosfilt.rs:sosfilt_dyn"]}
{"id": "C70", "title": "frequency response of the running filter", "statement": "For a stable cascade, filtering A cos(theta n + phi) with sosfilt_dyn gives A g cos(theta n + phi + psi) up to an error that dies out geometrically, where g e^(i psi) is the product of the sections' transfer functions at e^(i theta); this holds for every initial delay state.", "quantifier": "every stable cascade, frequency, amplitude, phase, delay state, length", "why_tests_cant": "asymptotic statement over unbounded lengths and a continuum of frequencies", "anchors": ["sci-rs/src/signal/filter/sosfilt.rs:sosfilt_dyn"]}
{"id": "C71", "title": "designed filters filter as specified", "statement": "Sections designed by butter_dyn or cheby1_dyn (digital, Sos output, zeros and poles clear of the real axis by the code's tolerance) and run by sosfilt_dyn scale a sinusoid at angle theta, in the steady state, by the Butterworth gain 1/sqrt(1 + v^(2N)) or the Chebyshev gain 1/sqrt(1 + eps^2 T_N(v)^2) of the prewarped band frequency v; Butterworth: exactly 1 at the reference and 1/sqrt 2 at the critical frequencies.", "quantifier": "every order >= 1, band type, valid critical frequencies, fs, ripple, frequency, amplitude, phase", "why_tests_cant": "end-to-end claim over all orders, cutoffs and frequencies", "anchors": ["sci-rs/src/signal/filter/design/butter.rs:butter_dyn", "sci-rs/src/signal/filter/design/iirfilter.rs:cheby1_dyn", "sci-rs/src/signal/filter/design/zpk2sos.rs:zpk2sos_dyn", "sci-rs/src/signal/filter/sosfilt.rs:sosfilt_dyn"]}
{"id": "C72", "title": "i0 and i0e compute the Bessel function I0", "statement": "For every real x, i0(x) differs from the modified Bessel function I0(x) = sum ((x/2)^k/k!)^2 by at most 2^-54 I0(x), and i0e(x) from e^-|x| I0(x) by at most 2^-54 e^-|x| I0(x), in exact arithmetic: coefficient tables, split at 8 and evaluation together cost at most half an f64 rounding. Both tables (f32 and f64).", "quantifier": "every real x, both number types' tables", "why_tests_cant": "a uniform error bound over a continuum and an unbounded range", "anchors": ["sci-rs/src/special/xsf/i0.rs:i0", "sci-rs/src/special/xsf/i0.rs:i0e", "sci-rs/src/special/xsf/chbevl.rs:chbevl"]}
{"id": "C73", "title": "rounding error of mean at f32 and f64", "statement": "In every IEEE binary format, for n <= 2^prec finite samples whose absolute values sum without overflow, mean returns a finite float within ((1+u)^n - 1) * mean|y| + half the smallest subnormal of the exact mean.", "quantifier": "every format with at least 2 bits, every sample list up to 2^prec values", "why_tests_cant": "tests compare a few means with a tolerance; the bound covers every data set and length", "anchors": ["sci-rs/src/stats.rs:mean"]}
{"id": "C74", "title": "rounding error of variance and stdev at f32 and f64", "statement": "For finite samples bounded by B with 256 n B^2 not overflowing, variance returns a finite non-negative float V' with |V'-V| <= ((1+u)^(n+3)-1)(V+e^2)+e^2+((1+u)^n+1)tiny, e the error bound of the mean; stdev is finite, non-negative and accordingly close to sqrt V (no catastrophic cancellation, never NaN).", "quantifier": "every format, every sample list up to 2^prec values", "why_tests_cant": "one-pass formulas fail this for shifted data only; tests use centred data", "anchors": ["sci-rs/src/stats.rs:variance", "sci-rs/src/stats.rs:stdev"]}
{"id": "C75", "title": "median of finite floats", "statement": "For finite floats of magnitude at most half the largest float, median is a sample for odd n and exactly the median; for even n it is finite, between two samples and within two roundings of the exact median. Beyond that magnitude it can be infinite.", "quantifier": "every format, every sample list", "why_tests_cant": "overflow of the half-sum and order ties (+0/-0) appear only for special values", "anchors": ["sci-rs/src/stats.rs:median"]}
{"id": "C76", "title": "exact facts about mean and variance at float types", "statement": "At f64 the mean lies between the smallest and largest sample, and the variance of equal samples is zero.", "quantifier": "every f64 sample list", "why_tests_cant": "holds for most data; fails for e.g. three times 0.1", "anchors": ["sci-rs/src/stats.rs:mean", "sci-rs/src/stats.rs:variance"]}
{"id": "C77", "title": "rounding errors of the running filter do not accumulate", "statement": "Filtering with stable second-order sections at f32 or f64: every output is finite and differs from the output computed without rounding by at most K (u X + t), where X bounds the samples and the initial delay values, u is the unit roundoff, t half the smallest subnormal, and K depends on the coefficients only - not on the length of the signal. For one section with poles of modulus at most r and coefficients of magnitude at most C, K = 12288 C^5 / (1-r)^4 will do.", "quantifier": "every stable cascade, every signal of every length, every binary format whose range and precision are large enough for K", "why_tests_cant": "signals are unboundedly long; the error bound must hold at every sample of every signal", "anchors": ["sci-rs/src/signal/filter/sosfilt.rs:sosfilt_dyn", "sci-rs/src/signal/filter/sosfilt.rs:biquad_fold"]}
{"id": "C78", "title": "digital Chebyshev II designs", "statement": "A digital Chebyshev II design with stop-band attenuation rs (obtained from iirfilter_dyn, both rp and rs given) is stable, has unit gain at the reference frequency, squared gain at most 10^(-rs/10) in the stop band and at least that in the pass band, exactly that at every critical frequency, and follows the inverse Chebyshev curve in between; the zpk, ba and sos outputs describe the same filter.", "quantifier": "every order, attenuation, valid critical frequencies, band type and angle", "why_tests_cant": "the attenuation must hold at every angle of every design", "anchors": ["sci-rs/src/signal/filter/design/iirfilter.rs:iirfilter_dyn", "sci-rs/src/signal/filter/design/iirfilter.rs:cheb2ap_dyn", "sci-rs/src/signal/filter/design/lp2hp_zpk.rs:lp2hp_zpk_dyn", "sci-rs/src/signal/filter/design/lp2bs_zpk.rs:lp2bs_zpk_dyn"]}
{"id": "C79", "title": "accuracy of i0 and i0e at f32 and f64", "statement": "For every finite float x, i0e returns a finite float whose relative distance from exp(-|x|) I0(x) is at most 365 unit roundoffs plus 2^-53 (2^-44 at f64, 2^-15 at f32). i0 returns a finite float whose relative distance from I0(x) is at most 1.01 rho + 375 unit roundoffs + 2^-52, if the platform's exponential is finite at |x| and has relative error at most rho <= 1/200. i0e of an infinity is 0, of NaN is NaN.", "quantifier": "every float of every binary format with at least 24 significant bits", "why_tests_cant": "2^64 arguments, and the error of each result is measured against an infinite series", "anchors": ["sci-rs/src/special/xsf/i0.rs:Bessel::i0", "sci-rs/src/special/xsf/i0.rs:Bessel::i0e", "sci-rs/src/special/xsf/chbevl.rs:chbevl"]}
{"id": "C80", "title": "zero-phase response of sosfiltfilt", "statement": "sosfiltfilt_dyn with stable sections applied to N samples of A cos(theta n + phi), N larger than the pad, returns N samples whose i-th differs from A |H(e^(i theta))|^2 cos(theta i + phi) by at most K |A| (rho^i + rho^(N-1-i)), where K and rho < 1 depend only on the sections: no phase shift, squared gain, edge effects that die out geometrically. For a Butterworth design the gain is 1/(1 + v^(2 order)), 1 at the reference frequency and 1/2 at each critical frequency.", "quantifier": "every stable cascade, amplitude, frequency, phase, length and index", "why_tests_cant": "a test checks one filter, one frequency and one length; the claim bounds every sample for all of them with one constant", "anchors": ["sci-rs/src/signal/filter/sosfiltfilt.rs:sosfiltfilt_dyn", "sci-rs/src/signal/filter/sosfilt.rs:sosfilt_dyn", "sci-rs/src/signal/filter/sosfilt_zi.rs:sosfilt_zi_dyn", "sci-rs/src/signal/filter/ext.rs:pad"]}
{"id": "C81", "title": "zpk2sos pairs nearest zeros and poles, worst section last", "statement": "zpk2sos_dyn of a real digital filter with the nearest pairing returns sections whose poles and zeros are those of the filter, filled up with zeros and poles at the origin, the gain in the first section. The last section has the pole closest to the unit circle and the zero closest to that pole; a complex root comes with its conjugate, a real pole with the remaining real pole closest to the unit circle, a real zero with the remaining real zero closest to the section's first pole; each earlier section is chosen in the same way from what is left. So for any two sections the later one has a pole at least as close to the unit circle as every pole of the earlier one. For analog filters with an even number of poles and as many zeros the same holds with the distance from the imaginary axis in place of the distance from the unit circle.", "quantifier": "every real zpk filter, of any order, with any numbers of zeros and poles, real or complex, separated by the tolerance", "why_tests_cant": "existing tests compare a few designs with SciPy output; the choice must be right at every turn of the loop for every set of roots", "anchors": ["sci-rs/src/signal/filter/design/zpk2sos.rs:zpk2sos_dyn", "sci-rs/src/signal/filter/design/zpk2sos.rs:nearest_real_complex_idx_dyn", "sci-rs/src/signal/filter/design/zpk2sos.rs:ZpkPairing"]}
{"id": "C82", "title": "section designs succeed for all ordinary arguments", "statement": "For digital Butterworth and Chebyshev I designs an inequality between the machine epsilon, the order and the critical frequencies (for low-pass and high-pass Butterworth: 100 epsilon N less than the distance of the cutoff from 0 and from Nyquist) guarantees that every zero and pole is exactly real or clear of the real axis by the tolerance of the section conversion. Under it the Sos output exists, has half as many sections as poles (rounded up), is stable, and sosfilt with it scales every sinusoid by the designed gain.", "quantifier": "every order, band type and set of critical frequencies satisfying the inequality, every ripple > 0, every sampling frequency, every epsilon >= 0", "why_tests_cant": "a test designs one filter; whether some order and cutoff confuses the real/complex classification of its roots needs a bound over all of them", "anchors": ["sci-rs/src/signal/filter/design/butter.rs:butter_dyn", "sci-rs/src/signal/filter/design/iirfilter.rs:cheby1_dyn", "sci-rs/src/signal/filter/design/cplx.rs:cplxreal_dyn", "sci-rs/src/signal/filter/design/zpk2sos.rs:zpk2sos_dyn"]}
{"id": "C83", "title": "rounding error of convolution and correlation at f32 and f64", "statement": "convolve of two non-empty signals of finite floats returns, in mode Full, Same and (second signal not longer) Valid, as many finite values as in exact arithmetic. Each differs from the exact convolution sum by at most an explicit bound, about 12 (eta + u) times the product of the sums of magnitudes of the two signals, where u is the unit roundoff and eta the relative accuracy of the FFT. The same holds for correlate in mode Full.", "quantifier": "all pairs of signals of finite floats whose spectra do not overflow, every FFT within relative error eta and absolute error tau, every IEEE binary format", "why_tests_cant": "tests compare a few short signals with a fixed tolerance; the bound must hold for all signals and lengths", "anchors": ["sci-rs/src/signal/convolve.rs:fftconvolve", "sci-rs/src/signal/convolve.rs:convolve", "sci-rs/src/signal/convolve.rs:correlate"]}
{"id": "C84", "title": "rounding error of resample at f32 and f64", "statement": "resample of a non-empty signal of finite floats returns n finite values, each within an explicit bound of the exact band-limited resampling; upsampling an even number of samples by an integer factor keeps the samples up to that bound. (An empty signal gives n values that are infinite or NaN.)", "quantifier": "all signals of finite floats whose spectrum does not overflow, every n, every FFT within relative error eta and absolute error tau, every IEEE binary format", "why_tests_cant": "tests compare a few signals with a fixed tolerance; the bound must hold for all signals and lengths", "anchors": ["sci-rs/src/signal/resample.rs:resample"]}
{"id": "C85", "title": "rounding error of rms, differences, rmssd, standard deviation, autocorrelation and z-scores at f32 and f64", "statement": "For finite samples that do not overflow: rms_fast32, rmssd and stdev return a finite non-negative float whose relative distance from the exact value is about n/4, n and n units roundoff (up to an explicit bound); every lag_diff entry has at most one rounding and none when its two samples differ by at most a factor of two; autocorr and zscore differ from the exact quotient by an explicit bound whenever the variance (deviation) is at least twice its own error bound; autocorr at lag 0 is exactly 1.", "quantifier": "all non-empty lists of finite floats with 256 n max^2 below the largest finite number and n at most 2^prec, every lag, every IEEE binary format", "why_tests_cant": "tests compare a few signals with a fixed tolerance; the bound must hold for all signals and lengths", "anchors": ["sci-rs/src/stats.rs:rms_fast32", "sci-rs/src/stats.rs:lag_diff", "sci-rs/src/stats.rs:rmssd", "sci-rs/src/stats.rs:stdev", "sci-rs/src/stats.rs:autocorr", "sci-rs/src/stats.rs:zscore"]}
{"id": "C86", "title": "rounding error of the median absolute deviation and the modified z-score at f32 and f64", "statement": "For finite samples below a fifth of the largest finite number, median_abs_deviation returns a finite float within an explicit bound (a few units roundoff times the deviation and the median) of the exact median absolute deviation. If that deviation exceeds its error bound, mod_zscore returns one finite value per sample, within an explicit bound of 0.6745 (x - median) / deviation.", "quantifier": "all non-empty lists of finite floats in range, every IEEE binary format with at least 24 bits", "why_tests_cant": "tests compare a few signals with a fixed tolerance; the bound must hold for all signals and lengths", "anchors": ["sci-rs/src/stats.rs:median_abs_deviation", "sci-rs/src/stats.rs:mod_zscore", "sci-rs/src/stats.rs:median"]}
{"id": "C87", "title": "rounding error of savgol_filter_dyn at f32 and f64", "statement": "For finite samples and finite coefficients from the solver, each output of savgol_filter_dyn that does not overflow is a finite float within w + 1 roundings of the exact combination of those coefficients with the samples. If the samples are within eps of a polynomial of degree at most polyorder and the coefficients within delta of an exact solution of the moment equations, each interior output is within that rounding error plus delta times the sum of the window's magnitudes plus eps times the sum of the coefficient magnitudes of the requested derivative.", "quantifier": "all finite signals, odd windows, polynomial orders and derivatives accepted by the function, every solver result, every IEEE binary format", "why_tests_cant": "tests compare a few signals with a fixed tolerance; the bound must hold for all signals and windows", "anchors": ["sci-rs/src/signal/filter/savgol_filter.rs:savgol_filter_dyn", "sci-rs/src/signal/filter/savgol_filter.rs:savgol_coeffs_dyn"]}
{"id": "C88", "title": "analog Chebyshev I designs of every band type", "statement": "cheby1_dyn (analog, zpk) returns a stable, conjugate-closed, proper filter with |H(jw)|^2 = 1/(1+(10^(rp/10)-1) T_N(v)^2), v = w/w0, w0/w, (w0 w1-w^2)/(w(w1-w0)) or its inverse; gain between -rp dB and 0 dB in the pass band, at most -rp dB outside, exactly -rp dB at each critical frequency.", "quantifier": "every order N >= 1, rp > 0, band type, positive increasing critical frequencies, frequency w", "why_tests_cant": "a test samples a few orders, ripples and frequencies", "anchors": ["sci-rs/src/signal/filter/design/iirfilter.rs:cheby1_dyn", "sci-rs/src/signal/filter/design/iirfilter.rs:iirfilter_dyn", "sci-rs/src/signal/filter/design/iirfilter.rs:cheb1ap_dyn"]}
{"id": "C89", "title": "shape of Butterworth and Chebyshev I responses", "statement": "Digital Butterworth: the gain falls strictly from the pass-band reference outwards (low-pass: with the angle; high-pass: against it; band-pass: away from the warped centre; band-stop: towards it). Digital Chebyshev I: the gain at the reference is 0 dB for odd and -rp dB for even order, both ripple levels are attained where cos(k pi/N) and cos((2k+1) pi/(2N)) predict, and the gain falls strictly outside the pass band. Every prototype frequency in [0, infinity) occurs at some angle.", "quantifier": "every order N >= 1, ripple, band type, valid critical frequencies, pair of angles", "why_tests_cant": "monotonicity and equal ripple quantify over all angles", "anchors": ["sci-rs/src/signal/filter/design/butter.rs:butter_dyn", "sci-rs/src/signal/filter/design/iirfilter.rs:cheby1_dyn"]}
{"id": "C90", "title": "zero-phase filtering with designed sections", "statement": "For digital Butterworth and Chebyshev I designs whose arguments satisfy the inequality of C82, the Sos output exists and sosfiltfilt_dyn with it returns a sinusoid scaled by the squared design gain, without phase shift, up to an error that dies out geometrically away from both ends; 1/2 (Butterworth) or -rp dB (Chebyshev) at each critical frequency.", "quantifier": "every order, band type, ripple and critical frequencies satisfying the inequality, every sinusoid, length and index", "why_tests_cant": "a test samples a few designs and signals", "anchors": ["sci-rs/src/signal/filter/sosfiltfilt.rs:sosfiltfilt_dyn", "sci-rs/src/signal/filter/design/butter.rs:butter_dyn", "sci-rs/src/signal/filter/design/iirfilter.rs:cheby1_dyn"]}
{"id": "C91", "title": "analog Chebyshev II designs and the shape of Chebyshev II responses (low-pass, band-pass)", "statement": "iirfilter_dyn (analog, Chebyshev II, zpk, low-pass or band-pass) returns a stable proper filter following the inverse Chebyshev curve: at most -rs dB in the stop band, at least that in the pass band, exactly that at the critical frequencies. Digital: the gain falls strictly through the pass band; the stop-band maximum and the value 0 are attained where the ripple predicts.", "quantifier": "every order N >= 1, attenuation rs > 0, low-pass and band-pass, valid critical frequencies, every frequency", "why_tests_cant": "a test samples a few orders and frequencies", "anchors": ["sci-rs/src/signal/filter/design/iirfilter.rs:iirfilter_dyn", "sci-rs/src/signal/filter/design/iirfilter.rs:cheb2ap_dyn"]}
{"id": "C92", "title": "rounding error of zero-phase filtering does not grow with the signal", "statement": "For a stable cascade there is a constant K, depending on its coefficients only, such that sosfiltfilt_dyn in any IEEE 754 format with unit roundoff u and smallest half-spacing t returns finite samples within K(uX + t) of the result in real arithmetic, when |x| <= X, K u <= 1 and K(X + t) does not exceed the largest finite number.", "quantifier": "every stable cascade, every binary format, every finite signal longer than the padding, every sample", "why_tests_cant": "the error of a recursive filter run twice could grow with the length", "anchors": ["sci-rs/src/signal/filter/sosfiltfilt.rs:sosfiltfilt_dyn", "sci-rs/src/signal/filter/sosfilt_zi.rs:sosfilt_zi_dyn", "sci-rs/src/signal/filter/ext.rs:odd_ext_dyn"]}
{"id": "C93", "title": "rounding error of the initial states", "statement": "For sections with a0 = 1 and a0 + a1 + a2 <> 0 there is a constant K, depending on the coefficients only, such that sosfilt_zi_dyn in any IEEE 754 format with K u <= 1 succeeds and every delay is finite and within K u of the one in real arithmetic.", "quantifier": "every such cascade, every binary format", "why_tests_cant": "a test samples a few cascades and one or two formats", "anchors": ["sci-rs/src/signal/filter/sosfilt_zi.rs:sosfilt_zi_dyn", "sci-rs/src/signal/filter/lfilter_zi.rs:lfilter_zi_dyn"]}
{"id": "C94", "title": "rounding error of the polynomial form of zeros and poles", "statement": "For all zeros, poles and gain there is a constant K such that zpk2tf_dyn in any IEEE 754 format with unit roundoff u, K u <= 1, in which they are represented, succeeds with finite coefficients, each within K u of the one in real arithmetic, and with a leading denominator coefficient of exactly 1. The same holds of the section built from them by single_zpksos_dyn.", "quantifier": "every finite list of zeros and poles, every gain, order and binary format fine enough, every sorting function", "why_tests_cant": "a test samples a few filters at one or two formats", "anchors": ["sci-rs/src/signal/filter/design/zpk2tf.rs: zpk2tf_dyn, poly_dyn", "sci-rs/src/signal/filter/design/zpk2sos.rs: single_zpksos_dyn"]}
{"id": "C95", "title": "rounding error of the rational frequency transforms", "statement": "For every filter with no more zeros than poles there is a constant K such that bilinear_zpk_dyn (no zero or pole at 2 fs), lp2lp_zpk_dyn and lp2hp_zpk_dyn (no zero or pole at 0), in any IEEE 754 format with K u <= 1, return finite zeros, poles and gain, in the same order and each within K u of the ones in real arithmetic.", "quantifier": "every filter and frequency meeting these conditions, every binary format fine enough", "why_tests_cant": "a test samples a few filters at one or two formats", "anchors": ["sci-rs/src/signal/filter/design/bilinear_zpk.rs: bilinear_zpk_dyn", "sci-rs/src/signal/filter/design/lp2lp_zpk.rs: lp2lp_zpk_dyn", "sci-rs/src/signal/filter/design/lp2hp_zpk.rs: lp2hp_zpk_dyn"]}
{"id": "C96", "title": "resample as band-limited interpolation", "statement": "With h half the shorter length, resampling L samples of a sinusoid with f cycles per window returns the samples of the same sinusoid at the new rate if f < h, silence if f > h (f < L/2), half of it if f = h < L/2, and the cosine part if f = h = L/2. Sums of components below h are kept, and resampling them to another length and back is the identity as long as every component stays below both halves. Up- and downsampling an even length halves the component at half the sampling rate.", "quantifier": "all lengths, frequencies, phases and amplitudes", "why_tests_cant": "a test samples a few tones", "anchors": ["sci-rs/src/signal/resample.rs: resample"]}
{"id": "C97", "title": "relations between mean, median, standard deviation, z-scores and RMS", "statement": "The mean minimises the sum of squared, the median the sum of absolute differences; mean and median differ by at most one standard deviation; a z-score is at most sqrt(n-1) in size; RMS^2 = mean^2 + variance; if more than half of the samples lie in an interval, so does the median; the median commutes with a x + b and is monotone in the samples.", "quantifier": "all non-empty samples", "why_tests_cant": "these hold for every sample and every candidate minimiser", "anchors": ["sci-rs/src/stats.rs: mean, median, variance, stdev, zscore, rms_fast32"]}
{"id": "C98", "title": "filtering is convolution with the impulse response", "statement": "For every cascade of sections with zero state, sosfilt_dyn of a signal is the beginning of convolve(signal, impulse response, Full), where the impulse response is the output for 1,0,0,...; for a section without feedback it is the beginning of convolve(signal, [b0,b1,b2], Full).", "quantifier": "all cascades, all signals", "why_tests_cant": "any length and any coefficients", "anchors": ["sci-rs/src/signal/filter/sosfilt.rs: sosfilt_dyn", "sci-rs/src/signal/convolve.rs: convolve"]}
{"id": "C99", "title": "algebra of convolution and correlation", "statement": "convolve in Full mode is commutative, associative and linear, has [1] as identity and delays under zeros followed by 1; its samples add up to the product of the sums. Swapping the arguments of correlate reverses the result. autocorr at lag k is the correlation of the centred signal with itself at lag k over that at lag 0.", "quantifier": "all non-empty signals", "why_tests_cant": "any lengths and values", "anchors": ["sci-rs/src/signal/convolve.rs: convolve, correlate", "sci-rs/src/stats.rs: autocorr"]}
{"id": "C100", "title": "splitting a list of roots into conjugate pairs and real roots", "statement": "cplxreal_dyn returns for every list whose complex elements pair up, within the tolerance, with conjugates one element per pair, with positive imaginary part and sorted, and the real elements sorted by value.", "quantifier": "all lists, all tolerances, default tolerance included", "why_tests_cant": "any number of roots in any order", "anchors": ["sci-rs/src/signal/filter/design/cplx.rs: cplxreal_dyn"]}
{"id": "C101", "title": "sorting of roots and real coefficients", "statement": "sort_cplx_dyn permutes its slice into the order by real and then imaginary part; poly_dyn of floats closed under conjugation returns coefficients whose imaginary parts are exactly zero, at every IEEE format and whatever the rounding errors of the real parts.", "quantifier": "all finite lists of roots, all formats", "why_tests_cant": "rounding errors could leave a tiny imaginary part for some list of roots", "anchors": ["sci-rs/src/signal/filter/design/cplx.rs: sort_cplx_dyn", "sci-rs/src/signal/filter/design/zpk2tf.rs: poly_dyn"]}
{"id": "C102", "title": "rounding error of low-pass and high-pass filter designs", "statement": "Given a library of elementary functions accurate to a fixed number of unit roundoffs, butter_dyn and cheby1_dyn called with a valid band edge return in floating point a filter of the same shape as in exact arithmetic whose zeros, poles, gain or coefficients are finite and within K unit roundoffs of the exact ones, K depending on the specification but not on the format; at formats precise enough the poles returned are stable.", "quantifier": "every order, band edge, sampling rate, ripple, low-pass and high-pass, analog and digital, zeros-poles-gain and coefficient output, every binary floating-point format, every accurate library of elementary functions", "why_tests_cant": "the design composes about ten stages, each rounding every root; tests compare a handful of designs in f64 to tables with a tolerance", "anchors": ["sci-rs/src/signal/filter/design/butter.rs: butter_dyn", "sci-rs/src/signal/filter/design/iirfilter.rs: cheby1_dyn, iirfilter_dyn", "sci-rs/src/signal/filter/design/lp2lp_zpk.rs: lp2lp_zpk_dyn", "sci-rs/src/signal/filter/design/lp2hp_zpk.rs: lp2hp_zpk_dyn", "sci-rs/src/signal/filter/design/bilinear_zpk.rs: bilinear_zpk_dyn", "sci-rs/src/signal/filter/design/zpk2tf.rs: zpk2tf_dyn"]}
{"id": "C103", "title": "frequency response of filters designed in floating point", "statement": "The low-pass or high-pass digital filter that butter_dyn or cheby1_dyn returns in floating point, as zeros, poles and gain or as coefficients, has at every frequency the squared gain 1/(1 + r^(2N)) (Butterworth) or 1/(1 + (10^(rp/10) - 1) T_N(r)^2) (Chebyshev I) up to K unit roundoffs, where r is the bilinearly warped ratio of the frequency to the band edge and K depends on neither the frequency nor the format; all poles and all roots of the denominator lie strictly inside the unit circle.", "quantifier": "every frequency, order, band edge, sampling rate, ripple, binary floating-point format fine enough, and accurate library of elementary functions", "why_tests_cant": "a frequency response is sampled by tests at finitely many frequencies and in f64 only; stability of the rounded coefficients concerns all complex numbers outside the unit circle", "anchors": ["sci-rs/src/signal/filter/design/butter.rs: butter_dyn", "sci-rs/src/signal/filter/design/iirfilter.rs: cheby1_dyn, iirfilter_dyn", "sci-rs/src/signal/filter/design/zpk2tf.rs: zpk2tf_dyn"]}
{"id": "C104", "title": "Savitzky-Golay filtering is local least-squares fitting", "statement": "With a solver returning least-norm solutions, every sample that savgol_filter_dyn returns, the ends included (edge samples repeated), is the deriv-th derivative at that sample of the polynomial of degree <= polyorder that minimises the squared deviations from the samples in the window; such a polynomial always exists; the coefficients of savgol_coeffs_dyn are symmetric for even and antisymmetric for odd derivatives; for deriv = 0 their squares sum to the centre coefficient, which is at most one, so white noise is never amplified.", "quantifier": "every signal, odd window, polynomial order, derivative order whose factorial fits, non-zero spacing", "why_tests_cant": "fitting must be optimal against every competing polynomial, for every signal", "anchors": ["sci-rs/src/signal/filter/savgol_filter.rs: savgol_filter_dyn, savgol_coeffs_dyn"]}
{"id": "C105", "title": "complementary, mirrored and higher-order designs", "statement": "Digital Butterworth low-pass and high-pass filters, and band-pass and band-stop filters, of the same order and edges have squared gains that add up to one at every frequency; a high-pass design with edge 1-w (in units of Nyquist) has at the angle theta the gain of the low-pass design with edge w at pi-theta (Butterworth and Chebyshev I); raising the order of a Butterworth design raises the gain at no frequency outside the pass band and lowers it at none inside.", "quantifier": "every order, edges, frequency, sampling rate", "why_tests_cant": "the relations are between two designs at all frequencies; tests compare single designs with tables", "anchors": ["sci-rs/src/signal/filter/design/butter.rs: butter_dyn", "sci-rs/src/signal/filter/design/iirfilter.rs: cheby1_dyn, iirfilter_dyn"]}
{"id": "C106", "title": "rounding in band-pass and band-stop designs", "statement": "Band-pass and band-stop Butterworth and Chebyshev I designs in floating point return, in zeros-poles-gain and in polynomial form, the design of exact arithmetic up to K unit roundoffs, where K depends on the arguments only; the poles may come in another order, because rounding decides on which side of its branch cut a complex square root is taken; the poles returned are stable.  Designs in which a real prototype pole becomes an exact double pole are excluded: there the poles are known to half the digits only.", "quantifier": "every order, pair of edges, ripple, sampling rate, IEEE 754 format with K unit roundoffs below one, library of elementary functions of bounded error", "why_tests_cant": "the number of formats, libraries and arguments is infinite, and tests compare with tables at f64", "anchors": ["sci-rs/src/signal/filter/design/butter.rs: butter_dyn", "sci-rs/src/signal/filter/design/iirfilter.rs: iirfilter_dyn, cheby1_dyn", "sci-rs/src/signal/filter/design/lp2bp_zpk.rs: lp2bp_zpk_dyn", "sci-rs/src/signal/filter/design/lp2bs_zpk.rs: lp2bs_zpk_dyn"]}
{"id": "C107", "title": "frequency response of rounded band-pass and band-stop designs", "statement": "The squared gain of a digital band-pass or band-stop Butterworth or Chebyshev I filter designed in floating point differs at no frequency by more than K unit roundoffs from the gain the textbook formula gives, in either output format, and the filter returned is stable.", "quantifier": "every frequency, order, pair of edges, ripple, sampling rate, IEEE 754 format fine enough, accurate library of elementary functions", "why_tests_cant": "responses are continuous in frequency; a test samples a few", "anchors": ["sci-rs/src/signal/filter/design/butter.rs: butter_dyn", "sci-rs/src/signal/filter/design/iirfilter.rs: cheby1_dyn, iirfilter_dyn"]}
{"id": "C108", "title": "sections designed in floating point", "statement": "A digital low-pass or high-pass Butterworth or Chebyshev I design with second-order-section output succeeds in floating point and returns sections whose coefficients are within K unit roundoffs of sections of real numbers that together make up the exact filter; the leading denominator coefficients are exactly 1, the delays are zero, and every pole of the float sections is inside the unit circle.  K depends on the arguments only.", "quantifier": "every order, edge, ripple, sampling rate, IEEE 754 format with K unit roundoffs below one, sorting routine, and library of elementary functions of bounded error that respects the reflection in the real axis", "why_tests_cant": "pairing and splitting compare rounded numbers; whether the comparisons can go wrong for some arguments, formats or libraries is not seen from examples", "anchors": ["sci-rs/src/signal/filter/design/zpk2sos.rs: zpk2sos_dyn", "sci-rs/src/signal/filter/design/cplx.rs: cplxreal_dyn", "sci-rs/src/signal/filter/design/butter.rs: butter_dyn", "sci-rs/src/signal/filter/design/iirfilter.rs: cheby1_dyn, iirfilter_dyn"]}
{"id": "C109", "title": "design and filter in floating point", "statement": "Designing a digital low-pass or high-pass Butterworth or Chebyshev I filter as sections and filtering a signal with them from rest, all in floating point, gives the output of the same two calls in exact arithmetic up to K (u X + tiny) at every sample, where X bounds the input, u is the unit roundoff and tiny the smallest positive float; the output is finite.  K depends on the design only, not on the signal or its length.", "quantifier": "every signal of every length, order, edge, ripple, sampling rate, IEEE 754 format fine enough, accurate symmetric library of elementary functions", "why_tests_cant": "signals are unbounded in number and length; the accumulated error of design and recursion cannot be sampled exhaustively", "anchors": ["sci-rs/src/signal/filter/sosfilt.rs: sosfilt_dyn", "sci-rs/src/signal/filter/design/zpk2sos.rs: zpk2sos_dyn", "sci-rs/src/signal/filter/design/butter.rs: butter_dyn", "sci-rs/src/signal/filter/design/iirfilter.rs: cheby1_dyn"]}
{"id": "C110", "title": "the transfer function is the behaviour", "statement": "Two cascades of normalised sections at rest give the same output for every signal if and only if their transfer functions agree.  In particular the sections may be run in any order, and all ways of splitting one filter into sections filter identically in exact arithmetic.  The same holds of zero-phase filtering (sosfiltfilt), for realisations with equally many taps.", "quantifier": "every pair of cascades of any lengths, every signal", "why_tests_cant": "agreement on some signals does not give agreement on all", "anchors": ["sci-rs/src/signal/filter/sosfilt.rs: sosfilt_dyn", "sci-rs/src/signal/filter/design/zpk2sos.rs: zpk2sos_dyn", "sci-rs/src/signal/filter/sosfiltfilt.rs: sosfiltfilt_dyn"]}
{"id": "C111", "title": "square wave in floating point", "statement": "In f32 and f64 the square wave succeeds for every array of finite samples (its debug assertion holds), gives 1 or -1, and gives the value of the exact wave of period 2 pi at every t further than u (|t| + 40) from the wave's edges, u being the unit roundoff; with duty 0 it is always -1, with duty 1 it is 1 for every t >= 0.  The remainder it uses is exact.  Infinite or NaN samples fail the assertion in debug builds and give -1 in release builds.", "quantifier": "every array of floats, every duty in [0,1], every binary format of at least 5 bits and constant 2 pi rounded to it", "why_tests_cant": "the reduction modulo 2 pi works on integers of a thousand bits for large arguments, and the constant is not 2 pi; no sample of arguments covers this", "anchors": ["sci-rs/src/signal/wave/mod.rs: square"]}
{"id": "C112", "title": "band-pass and band-stop sections in floating point", "statement": "A digital Butterworth or Chebyshev I band-pass or band-stop design with section output succeeds in every IEEE 754 format fine enough for the design, gives max(1, order) sections, each within a multiple of the unit roundoff of a section of real numbers; these make up exactly the filter of real arithmetic, and the sections of floats are stable.  Filtering a signal with them gives finite samples, each within K (u X + tiny) of the output of the exact design, X bounding the input, with a K that does not depend on the signal or its length.", "quantifier": "every order, pair of edges without a double pole, ripple, sampling rate, format, library of elementary functions accurate to E unit roundoffs and symmetric, sort, signal", "why_tests_cant": "the pairing of poles needs the two poles of a pair to be exactly conjugate after a complex square root in floats, and rounding may swap the two roots; a test sees one format and one design", "anchors": ["sci-rs/src/signal/filter/design/lp2bp_zpk.rs: lp2bp_zpk_dyn", "sci-rs/src/signal/filter/design/lp2bs_zpk.rs: lp2bs_zpk_dyn", "sci-rs/src/signal/filter/design/zpk2sos.rs: zpk2sos_dyn", "sci-rs/src/signal/filter/design/iirfilter.rs: iirfilter_dyn", "sci-rs/src/signal/filter/sosfilt.rs: sosfilt_dyn"]}
{"id": "C113", "title": "zero-phase filtering with designed filters in floating point", "statement": "A digital Butterworth or Chebyshev I filter, of any of the four band types, designed in floats with section output is accepted by sosfiltfilt for every signal longer than three times its number of taps; the output is finite, as long as the signal, and each sample is within K (u X + tiny) of the zero-phase output of the exact design in exact arithmetic, X bounding the input.  K does not depend on the signal or its length.", "quantifier": "every order, edges, ripple, sampling rate, format fine enough, accurate and symmetric library of elementary functions, sort, signal", "why_tests_cant": "the initial conditions, the extension and both passes are computed with rounded coefficients; a test sees one design, one format and one signal", "anchors": ["sci-rs/src/signal/filter/sosfiltfilt.rs: sosfiltfilt_dyn", "sci-rs/src/signal/filter/sosfilt_zi.rs: sosfilt_zi_dyn", "sci-rs/src/signal/filter/sosfilt.rs: sosfilt_dyn", "sci-rs/src/signal/filter/design/butter.rs: butter_dyn", "sci-rs/src/signal/filter/design/iirfilter.rs: cheby1_dyn"]}
{"id": "C114", "title": "a tone through a filter designed and run in floating point", "statement": "A digital Butterworth or Chebyshev I filter, of any of the four band types, is designed in floats with section output, and a signal within d of a tone A cos(theta n + phi) is filtered with it in floats.  The output is within K (u A + d + tiny + A rho^n) of the tone with gain g and phase shift psi at sample n, where rho < 1 and g is the gain the Butterworth or Chebyshev formula gives at theta.  g and psi are the modulus and argument of the exact design's transfer function; K and rho do not depend on the format, the tone's frequency, amplitude and phase, or the length of the signal.", "quantifier": "every order, edges, ripple, sampling rate, frequency, format fine enough, accurate and symmetric library of elementary functions, sort, tone, signal near it", "why_tests_cant": "it is a claim about all sample times after all transients, all frequencies and all formats; a test sees one finite run", "anchors": ["sci-rs/src/signal/filter/sosfilt.rs: sosfilt_dyn", "sci-rs/src/signal/filter/design/butter.rs: butter_dyn", "sci-rs/src/signal/filter/design/iirfilter.rs: cheby1_dyn"]}
{"id": "C115", "title": "Chebyshev II low-pass filters designed and run in floating point", "statement": "iirfilter_dyn with ChebyshevII and Lowpass, run in floats, gives zeros, poles, gain and transfer-function coefficients within K u of the exact design; a stable filter whose gain at every frequency is within K u of the Chebyshev II formula; sections within K u of sections that realise the exact filter; and sosfilt_dyn and sosfiltfilt_dyn with those sections give every sample within K (u X + tiny) of the exact result for signals bounded by X.  A tone comes out with the gain of the formula.  K does not depend on the format or on the length of the signal.", "quantifier": "every order, attenuation, edge, sampling rate, format fine enough, accurate (and for sections symmetric) library of elementary functions, sort, signal", "why_tests_cant": "a test compares one design in one format with a reference table; the claim is for all designs, formats and signal lengths", "anchors": ["sci-rs/src/signal/filter/design/iirfilter.rs: iirfilter_dyn", "sci-rs/src/signal/filter/design/iirfilter.rs: cheb2ap_dyn", "sci-rs/src/signal/filter/sosfilt.rs: sosfilt_dyn", "sci-rs/src/signal/filter/sosfiltfilt.rs: sosfiltfilt_dyn"]}
{"id": "C116", "title": "a tone through zero-phase filtering designed and run in floating point", "statement": "A digital Butterworth or Chebyshev I filter of any band type, or a Chebyshev II low-pass, is designed in floats with section output, and a signal within d of a tone A cos(theta n + phi) is filtered with sosfiltfilt_dyn in floats.  The output is within K (u A + d + tiny + A (rho^n + rho^(N-1-n))) of g A cos(theta n + phi) at sample n of N: no phase shift, and g is the squared gain the formula gives at theta.  K and rho < 1 do not depend on the format, on the frequency, amplitude and phase of the tone, or on the length of the signal.", "quantifier": "every order, edges, ripple, sampling rate, format fine enough, accurate and symmetric library of elementary functions, sort, frequency, tone, signal near it longer than three times the number of taps", "why_tests_cant": "it is a claim about all frequencies, all signal lengths and all formats; a test sees one finite run", "anchors": ["sci-rs/src/signal/filter/sosfiltfilt.rs: sosfiltfilt_dyn", "sci-rs/src/signal/filter/design/butter.rs: butter_dyn", "sci-rs/src/signal/filter/design/iirfilter.rs: cheby1_dyn", "sci-rs/src/signal/filter/design/iirfilter.rs: iirfilter_dyn"]}
{"id": "C117", "title": "section output of analog Butterworth and Chebyshev I designs", "statement": "With analog = true and section output, a high-pass or band-stop design returns fresh sections (a0 = 1, zero state), half as many as poles, whose transfer functions multiply to that of the zeros-poles-gain output.  A band-pass design of order N returns sections for that filter times s^N, and so does a low-pass design of even order, which therefore are never the filter asked for; a low-pass design of odd order panics.  This holds for every order and all frequencies under an inequality that keeps the poles clear of the tolerance for real roots.", "quantifier": "every order, critical frequencies, ripple, tolerance, sort, complex frequency", "why_tests_cant": "a test sees one order and one set of edges; that the output is wrong for every even low-pass order and every band-pass, and right for all high-pass and band-stop ones, is a statement about all of them", "anchors": ["sci-rs/src/signal/filter/design/butter.rs: butter_dyn", "sci-rs/src/signal/filter/design/iirfilter.rs: cheby1_dyn", "sci-rs/src/signal/filter/design/iirfilter.rs: iirfilter_dyn", "sci-rs/src/signal/filter/design/zpk2sos.rs: zpk2sos_dyn"]}
{"id": "C118", "title": "digital Chebyshev II filters in second-order sections", "statement": "A low-pass or band-pass digital Chebyshev II design with section output returns stable sections, half as many as poles, and sosfilt with them turns every sinusoid, once the transient has died out, into one of the same frequency scaled by the Chebyshev II gain: 1 at the reference frequency, at most 10^(-rs/20) in the stop band and exactly that at the edges, 0 at the zeros.  The only condition, besides valid arguments, is an inequality in the order, the attenuation, the edges and the tolerance.", "quantifier": "every order, attenuation, edges, sampling rate, tolerance, sort, frequency, amplitude and phase", "why_tests_cant": "the gain is claimed at every frequency, for every order and attenuation; a test samples a few", "anchors": ["sci-rs/src/signal/filter/design/iirfilter.rs: iirfilter_dyn", "sci-rs/src/signal/filter/design/iirfilter.rs: cheb2ap_dyn", "sci-rs/src/signal/filter/design/zpk2sos.rs: zpk2sos_dyn", "sci-rs/src/signal/filter/sosfilt.rs: sosfilt_dyn"]}
{"id": "C119", "title": "Chebyshev II band-pass filters designed and run in floating point", "statement": "In every IEEE 754 format fine enough and with every library of elementary functions accurate to a few ulps, a Chebyshev II band-pass design succeeds and returns, up to the order of zeros and poles, the filter of real arithmetic with an error of at most a constant times the unit roundoff; it is stable, its gain is the Chebyshev II gain up to such a constant at every frequency, its sections are close to sections that make up the exact filter, sosfilt and sosfiltfilt with them give the exact output up to such a constant at every sample of every bounded signal, and a tone comes out scaled by the Chebyshev II gain (by its square under sosfiltfilt) once the transient has died out.  For an odd order the edges must not give a double pole.", "quantifier": "every order, attenuation, pair of edges, sampling rate, floating-point format and library; every signal, length, frequency, amplitude and phase", "why_tests_cant": "a test runs one design in one format on one machine's library; the zeros lie on the branch cut of the complex square root, so which root comes first depends on single roundings", "anchors": ["sci-rs/src/signal/filter/design/iirfilter.rs: iirfilter_dyn", "sci-rs/src/signal/filter/design/iirfilter.rs: cheb2ap_dyn", "sci-rs/src/signal/filter/design/lp2bp_zpk.rs: lp2bp_zpk_dyn", "sci-rs/src/signal/filter/design/zpk2sos.rs: zpk2sos_dyn", "sci-rs/src/signal/filter/sosfilt.rs: sosfilt_dyn", "sci-rs/src/signal/filter/sosfiltfilt.rs: sosfiltfilt_dyn"]}
{"id": "C120", "title": "sums of tones through filters designed and run in floating point", "statement": "A signal within d of a sum of any number of tones, filtered in floats with the sections of a digital Butterworth or Chebyshev I filter (any band type) or a Chebyshev II low-pass or band-pass designed in floats, comes out as the sum of the same tones, each changed by the exact design's response at its own frequency; under sosfiltfilt each is only scaled, by the squared gain of the textbook formula at its frequency.  At sample n the error is at most K (u S + d + tiny + S rho^n), where S is the sum of the amplitudes (rho^n + rho^(N-1-n) for zero phase).  K and rho < 1 do not depend on the number of tones, the format, or the length of the signal.", "quantifier": "every order, edges, ripple or attenuation, sampling rate, format fine enough, accurate and symmetric library, sort; every list of tones and every signal near their sum", "why_tests_cant": "a float filter is not linear, so results for single tones do not give the result for their sum; a test checks a few tones, one design and one format", "anchors": ["sci-rs/src/signal/filter/design/iirfilter.rs: iirfilter_dyn", "sci-rs/src/signal/filter/design/butter.rs: butter_dyn", "sci-rs/src/signal/filter/design/iirfilter.rs: cheby1_dyn", "sci-rs/src/signal/filter/sosfilt.rs: sosfilt_dyn", "sci-rs/src/signal/filter/sosfiltfilt.rs: sosfiltfilt_dyn"]}
{"id": "C121", "title": "the energy of filtered signals", "statement": "For stable sections at rest, the smallest G such that the output of sosfilt has at most G^2 times the energy of the input, for every signal, is the largest gain of the sections over all frequencies.  For digital Butterworth and Chebyshev I filters of every band type and for Chebyshev II low-pass and band-pass filters it is exactly 1: no signal comes out with more energy than it went in, and no smaller factor would do.  Designed and run in floats, the root energy grows at most by sqrt(N) K (u X + tiny) on a signal of N samples bounded by X.", "quantifier": "every stable cascade, signal and factor; every order, edges, ripple or attenuation, sampling rate, and in floats every format fine enough, accurate and symmetric library, sort", "why_tests_cant": "the worst signal for a filter is not known in advance and its energy gain is only approached in the limit of long signals", "anchors": ["sci-rs/src/signal/filter/sosfilt.rs: sosfilt_dyn", "sci-rs/src/signal/filter/design/iirfilter.rs: iirfilter_dyn", "sci-rs/src/signal/filter/design/butter.rs: butter_dyn", "sci-rs/src/signal/filter/design/iirfilter.rs: cheby1_dyn"]}
{"id": "C122", "title": "infinities and NaN among the samples and arguments", "statement": "One infinite or NaN sample leaves the output of sosfilt up to it unchanged and makes every later output infinite or NaN, in this call and, because the delays are lost, in every later call with the returned sections; for NaN all of them are NaN.  Zero-phase filtering then has no finite output at all.  The mean and the RMS are not finite, variance, standard deviation, all z-scores and the autocorrelation are NaN.  A Savitzky-Golay filter loses exactly the outputs whose window holds the sample.  A NaN edge is not refused by the design functions: the design succeeds with every pole NaN.", "quantifier": "every binary format, signal, position of the sample, sections, window; every order of low-pass and high-pass Butterworth designs", "why_tests_cant": "a test sees one position and one length; that a filter never recovers is a statement about all later samples and calls", "anchors": ["sci-rs/src/signal/filter/sosfilt.rs: sosfilt_dyn", "sci-rs/src/signal/filter/sosfiltfilt.rs: sosfiltfilt_dyn", "sci-rs/src/signal/filter/savgol_filter.rs: savgol_filter_dyn", "sci-rs/src/stats.rs: mean, variance, stdev, zscore, autocorr", "sci-rs/src/signal/filter/design/iirfilter.rs: iirfilter_dyn"]}
{"id": "C123", "title": "how large filtered signals can get", "statement": "For sections at rest, a factor bounds the largest output by the largest sample, for every signal, if and only if it bounds the sum of the magnitudes of the impulse response; for stable sections there is a smallest such factor, approached geometrically by those sums, and it is at least the gain at every frequency and the energy gain.  Conversely, if any factor exists then every pole on or outside the unit circle is cancelled by a zero: without such cancellations, outputs stay bounded for all bounded signals exactly when the sections are stable.  In floats the same bound holds up to K (u X + tiny), with all outputs finite.", "quantifier": "every cascade of sections, factor and signal; in floats every format fine enough", "why_tests_cant": "the worst signal depends on the filter and its length is unbounded", "anchors": ["sci-rs/src/signal/filter/sosfilt.rs: sosfilt_dyn"]}
{"id": "C124", "title": "zero-phase filtering of any signal", "statement": "With stable sections, sosfiltfilt of any signal bounded by M is, at sample n, within K M (rho^n + rho^(N-1-n)) of sum_j x_j r(|n-j|), where r(m) = sum_k h_k h_(k+m) is the autocorrelation of the impulse response h of the sections: a kernel that is symmetric, largest at zero and geometrically small, whose spectrum is the squared gain of the sections, so nothing is shifted in time, and the ends of the signal matter near the ends only.  Filtering the reversed signal gives the reversed output up to such end effects.  In floats the same holds up to K (u X + tiny).", "quantifier": "every stable cascade, every signal longer than the padding, every sample; in floats every format fine enough", "why_tests_cant": "tests see particular signals; that the output is one fixed symmetric kernel applied everywhere, for all signals and lengths, is a universal statement", "anchors": ["sci-rs/src/signal/filter/sosfiltfilt.rs: sosfiltfilt_dyn", "sci-rs/src/signal/filter/sosfilt.rs: sosfilt_dyn"]}
{"id": "C125", "title": "section output of analog Chebyshev II designs", "statement": "For an analog Chebyshev II low-pass or band-pass design whose arguments keep the poles clear of the tolerance for real numbers, asking for second-order sections gives the filter that asking for zeros, poles and gain gives exactly when the order is even.  For odd orders the low-pass panics, and the band-pass panics or returns the filter multiplied by s.", "quantifier": "every order, every attenuation > 0, every valid edge frequencies that meet the stated condition, every tolerance epsilon >= 0", "why_tests_cant": "a test checks one order and one set of frequencies; the parity law and the panic hold for all of them", "anchors": ["sci-rs/src/signal/filter/design/iirfilter.rs: iirfilter_dyn", "sci-rs/src/signal/filter/design/iirfilter.rs: cheb2ap_dyn", "sci-rs/src/signal/filter/design/zpk2sos.rs: zpk2sos_dyn"]}
{"id": "C126", "title": "rounding errors follow the recent signal", "statement": "For stable sections there are K and rho < 1 such that in every format fine enough, under every bound e_n on the input that falls by at most the factor rho per sample (and bounds the initial delays by e_0), output sample n of the float filter is finite, at most K (e_n + tiny), and within K (u e_n + tiny) of the exact filter: a loud passage leaves no error behind beyond what it leaves in the signal.  When the input stops, the float output k samples later is at most K (X rho^k + tiny), so it ends below K times the smallest positive number; it need not reach zero.", "quantifier": "every stable cascade, every signal of every length, every envelope, every sample, every format fine enough", "why_tests_cant": "error accumulation and limit cycles show on some long signals only; the bound is for all signals and lengths", "anchors": ["sci-rs/src/signal/filter/sosfilt.rs: sosfilt_dyn, biquad_fold"]}
{"id": "C127", "title": "turning the signal upside down, in floats", "statement": "In floats, negating every sample (and every delay value) negates every output sample of sosfilt and sosfiltfilt, the mean, the median, the lag differences and the (modified) z-scores, and leaves variance, standard deviation, median absolute deviation, rms and rmssd as they are: bit for bit, except that the sign of a zero is not determined.  The two autocorrelations give the same numbers.  This holds for all floats, infinities and NaN included, and so do panics: one side panics exactly when the other does.", "quantifier": "every format, every signal of floats including infinities and NaN, every cascade of sections", "why_tests_cant": "exact equality of two float computations for all inputs is a statement about every rounding that can occur", "anchors": ["sci-rs/src/signal/filter/sosfilt.rs: sosfilt_dyn", "sci-rs/src/signal/filter/sosfiltfilt.rs: sosfiltfilt_dyn", "sci-rs/src/stats.rs: mean, median, variance, stdev, autocorr, autocorr_fast32, rms_fast32, lag_diff, rmssd, zscore, mod_zscore, median_abs_deviation"]}
{"id": "C128", "title": "delaying the signal, in floats", "statement": "sosfilt with finite coefficients from rest: if d zeros are put before the signal, the output is d zeros followed by the output without them, the same numbers exactly (up to the sign of zeros), and so are the final delay values.", "quantifier": "every format, every cascade with finite coefficients, every signal of floats, every delay", "why_tests_cant": "exact equality for all inputs and delays", "anchors": ["sci-rs/src/signal/filter/sosfilt.rs: sosfilt_dyn"]}
{"id": "C129", "title": "order is respected, in floats", "statement": "In floats, with every rounding and every overflow: if every sample is raised or left alone, the mean, the median and every output sample of a filter whose sections have non-negative b coefficients and feedback of the smoothing sign are raised or left alone; if every absolute value is raised or left alone, so is the RMS; and zscore and mod_zscore never put a larger sample below a smaller one. 'x is not above y' means that y < x is false; for values that are not NaN that is x <= y.", "quantifier": "every format, every pair of signals related sample by sample, infinities and NaN included (for the median, no NaN), every cascade of smoothing sections", "why_tests_cant": "two float computations are compared for all pairs of inputs; a single rounding that breaks the order would falsify it", "anchors": ["sci-rs/src/stats.rs: mean, median, rms_fast32, zscore, mod_zscore", "sci-rs/src/signal/filter/sosfilt.rs: sosfilt_dyn"]}
{"id": "C130", "title": "symmetries of Savitzky-Golay filtering", "statement": "Polynomial orders p and p + 1 give the same savgol coefficients and the same filtered signal when p has the parity of the derivative order. Filtering the reversed signal gives the reversed output, times -1 for odd derivatives. In floats, negating the samples negates the output, exactly up to the sign of zeros.", "quantifier": "every odd window, order, derivative, spacing and signal; every least-squares solver that returns the least-norm solution; for the sign symmetry every format, all floats and any solver", "why_tests_cant": "equalities between runs for all signals and all parameters", "anchors": ["sci-rs/src/signal/filter/savgol_filter.rs: savgol_filter_dyn, savgol_coeffs_dyn"]}
{"id": "C131", "title": "resampling in several steps", "statement": "resample to n samples and from there to m gives what resample to m gives directly, provided n is at least the smaller of the first and the last length and the two steps keep a different number of frequencies. Up to n samples and back to L loses exactly half of the component of L/2 cycles for even L and three quarters of it for odd L, and returns everything else. The mean of the output is the mean of the input whenever both lengths are at least two.", "quantifier": "every signal, all lengths", "why_tests_cant": "an identity for all signals and all lengths", "anchors": ["sci-rs/src/signal/resample.rs: resample"]}
{"id": "C132", "title": "changing the unit by a power of two, in floats", "statement": "In floats, if every sample is multiplied by the same power of two, mean, standard deviation, RMS, rmssd, differences, median and median absolute deviation are multiplied by exactly that power and the variance by its square; z-scores, modified z-scores and autocorrelations stay the same numbers; and every sample of a Savitzky-Golay filtered signal is multiplied by exactly that power. The samples must be zero or inside a range that keeps squares and sums away from overflow and underflow (for f64 and a million samples: 2^-400 to 2^400).", "quantifier": "every format, every signal inside the range, every power of two that keeps it there, every lag, every least-squares solver", "why_tests_cant": "an exact equality between two float computations, for all signals and all powers; outside the range it fails", "anchors": ["sci-rs/src/stats.rs: mean, variance, stdev, zscore, rms_fast32, rmssd, lag_diff, median, median_abs_deviation, mod_zscore, autocorr", "sci-rs/src/signal/filter/savgol_filter.rs: savgol_filter_dyn"]}
{"id": "C133", "title": "whole numbers are filtered without rounding", "statement": "If the samples and the delay states are fixed-point numbers (multiples of one power of two), the coefficients of the sections are whole numbers, and the exact run stays below 2^p steps (p significant bits), sosfilt_dyn in floats returns exactly what exact arithmetic returns, final states included, feedback included. For sections without feedback started from rest it is enough that the largest sample times the sums of the coefficients is below that limit. The mean of whole numbers whose absolute values add up to at most 2^p is the float nearest to the exact mean, whatever the order of the samples, and differences of neighbouring fixed-point samples are exact.", "quantifier": "every format, every cascade of sections with whole-number coefficients, every signal and every length", "why_tests_cant": "an equality with exact arithmetic for all signals, sections and formats", "anchors": ["sci-rs/src/signal/filter/sosfilt.rs: sosfilt_dyn", "sci-rs/src/stats.rs: mean, lag_diff"]}
{"id": "C134", "title": "only the ratio of band edges and sampling frequency matters", "statement": "Digital designs (every filter family, band type and output form) with all band edges and the sampling frequency multiplied by the same factor return the same result, panics included; in exact arithmetic for every factor other than zero, in floats bit for bit for every power of two as long as twice an edge does not overflow. Leaving out the sampling frequency is the same as giving two, in floats too.", "quantifier": "every order, edges, ripple, attenuation, family, band type, output form and sampling frequency; in floats every format and whatever sin, tan, sinh and the others return", "why_tests_cant": "an equality between two designs for all arguments", "anchors": ["sci-rs/src/signal/filter/design/iirfilter.rs: iirfilter_dyn", "sci-rs/src/signal/filter/design/butter.rs: butter_dyn"]}
{"id": "C135", "title": "extension values and companion matrices are correctly rounded", "statement": "In floats, odd_ext_dyn copies the samples unchanged and every added value is the float nearest to twice the edge sample minus the mirrored sample, along either axis; companion_dyn puts the float nearest to -a[j+1]/a[0] into the first row, exact ones below the diagonal and zeros elsewhere. Values must stay away from overflow (a third of the largest float for the extension, quotients up to the largest float for the matrix).", "quantifier": "every format, every matrix and extension length, every polynomial with a leading coefficient other than zero", "why_tests_cant": "the nearest float among all floats, for all inputs", "anchors": ["sci-rs/src/signal/filter/ext.rs: odd_ext_dyn", "sci-rs/src/linalg/companion.rs: companion_dyn"]}
{"id": "C136", "title": "symmetries and power of resampling", "statement": "In exact arithmetic, starting the period of a signal s of L samples later makes resample to n samples start t samples later, whenever s/L = t/n. Running the period backwards runs the output backwards. The mean product of resample(x, w.len()) with w is the mean product of x with resample(w, x.len()). The mean square of the output is at most the mean square of the input.", "quantifier": "every signal, all lengths, all shifts", "why_tests_cant": "identities between two runs, for all signals and lengths", "anchors": ["sci-rs/src/signal/resample.rs: resample"]}
{"id": "C137", "title": "correlation finds a delayed pulse", "statement": "In exact arithmetic, the square of every value of correlate(x, y, Full) is at most the energy of x times the energy of y. If x is d zeros, then A > 0 times a pulse y that is not all zero, then e zeros, correlate(x, y, Full) is A times the energy of y at index d + y.len() - 1 and strictly smaller at every other index. Noise w added to a signal does not move the largest value if its margin squared exceeds four times energy(w) energy(y). In floats the computed correlation is largest where the exact one is, if the margin exceeds twice the error bound of C83.", "quantifier": "every pulse, delay, factor and number of trailing zeros; every pair of non-empty signals", "why_tests_cant": "a strict inequality at every other index, for all pulses", "anchors": ["sci-rs/src/signal/convolve.rs: correlate"]}
{"id": "C138", "title": "convolution multiplies polynomials and spectra", "statement": "In exact arithmetic, the polynomial whose coefficients are convolve(x, y, Full) is, at every complex number, the product of the polynomials with coefficients x and y (at exp(-i theta): the spectrum of the convolution is the product of the spectra); for correlate the second polynomial has its coefficients reversed. No value of the convolution exceeds the largest sample of y times the sum of the magnitudes of x, the magnitudes add up to at most the product of the sums of magnitudes, and signals without negative samples give no negative values.", "quantifier": "every pair of non-empty signals, every complex number", "why_tests_cant": "an identity of polynomials, for all signals and every complex argument", "anchors": ["sci-rs/src/signal/convolve.rs: convolve, correlate"]}
{"id": "C139", "title": "Savitzky-Golay filtering is a convolution", "statement": "In exact arithmetic, savgol_filter_dyn of a non-empty signal with an odd window w >= polyorder + 2 is convolve, in Valid mode, of the signal with its first and last sample repeated w/2 times more and the coefficients of savgol_coeffs_dyn, at every sample, the ends included.", "quantifier": "every non-empty signal, window, polynomial order, derivative and spacing; every solver that returns one coefficient per tap", "why_tests_cant": "equality of two functions of the crate for all inputs", "anchors": ["sci-rs/src/signal/filter/savgol_filter.rs: savgol_filter_dyn, savgol_coeffs_dyn", "sci-rs/src/signal/convolve.rs: convolve"]}
{"id": "C140", "title": "coefficients of filters in series are convolved", "statement": "In exact arithmetic, for two filters with conjugate-closed zeros and poles, the numerator and denominator that zpk2tf_dyn gives for the zeros of both, the poles of both and the product of the gains (order the sum of the orders) are exactly convolve, in Full mode, of the numerators and of the denominators it gives for each; zero padding included.", "quantifier": "every two filters with at most as many zeros and poles as their order", "why_tests_cant": "equality of two ways through the crate for all roots, gains and orders", "anchors": ["sci-rs/src/signal/filter/design/zpk2tf.rs: zpk2tf_dyn, poly_dyn", "sci-rs/src/signal/convolve.rs: convolve"]}
{"id": "C141", "title": "statistics of joined samples, and outliers", "statement": "In exact arithmetic, mean and variance of two samples put together follow from their counts, means and variances (weighted mean; weighted variance plus n m (a-b)^2/(n+m)^2), and the median lies between the two medians. If more than half of the samples lie in an interval, the median absolute deviation is at most its length and, if it is not zero, the modified z-score of a sample outside is at least 0.6745 times its distance from the interval over the length of the interval, whatever the remaining samples are.", "quantifier": "all non-empty samples of any length", "why_tests_cant": "all samples, all ways to spoil less than half of them", "anchors": ["sci-rs/src/stats.rs: mean, variance, median, median_abs_deviation, mod_zscore"]}
{"id": "C142", "title": "identities between the counting functions", "statement": "With overflow checks on: comb(n,k) and comb(n,n-k) give the same result, panics included, and so do comb_rep(n,k) and comb(n+k-1,k); when comb(n+1,k+1) returns, so do comb(n,k) and comb(n,k+1) and it is their sum; when perm(n,k) returns, so do comb(n,k) and k.factorial() and it is their product; when stirling2(n+1,k+1) returns, so do stirling2(n,k) and stirling2(n,k+1) and it is the first plus k+1 times the second.", "quantifier": "every primitive integer type and pointer width, all arguments", "why_tests_cant": "all arguments of twelve types, overflow cases included", "anchors": ["sci-rs/src/special/combinatorics.rs: Combinatoric", "sci-rs/src/special/factorial.rs: Factorial"]}
{"id": "C143", "title": "differences, autocorrelation and RMS through convolve and correlate", "statement": "In exact arithmetic: lag_diff of at least two samples is convolve with [1, -1] in Valid mode; autocorr at lag k < n of samples that are not all equal is the value of correlate(d, d, Full), d the samples less their mean, k places before and also k places after the middle, over its (positive) value in the middle; rms_fast32 is the square root of the middle value of correlate(y, y, Full) over n.", "quantifier": "all signals and lags; every FFT that computes the DFT", "why_tests_cant": "equality of functions in two modules of the crate for all inputs", "anchors": ["sci-rs/src/stats.rs: lag_diff, autocorr, rms_fast32", "sci-rs/src/signal/convolve.rs: convolve, correlate"]}
{"id": "C144", "title": "sections multiply out to the transfer-function coefficients", "statement": "In exact arithmetic, for a digital filter with conjugate-closed zeros and poles that are real or clear of the real axis by the code's tolerance: convolving, in Full mode, the numerators (b0, b1, b2) of the sections returned by zpk2sos_dyn one after the other gives exactly the numerator returned by zpk2tf_dyn with twice the number of sections as order, and so for the denominators.", "quantifier": "every such filter, pairing None or Nearest, every FFT that computes the DFT and sort that sorts", "why_tests_cant": "agreement of three functions of the crate for all zeros, poles and gains", "anchors": ["sci-rs/src/signal/filter/design/zpk2sos.rs: zpk2sos_dyn", "sci-rs/src/signal/filter/design/zpk2tf.rs: zpk2tf_dyn", "sci-rs/src/signal/convolve.rs: convolve"]}
{"id": "C145", "title": "Ba coefficients are the difference equation the sections run", "statement": "For digital Butterworth and Chebyshev I designs whose zeros and poles are real or clear of the real axis by the code's tolerance: the output y of sosfilt_dyn for any signal x, run with the sections returned with Sos output, satisfies sum_j a_j y[i-j] = sum_j b_j x[i-j] at every sample, with b and a (a_0 = 1) returned with Ba output for the same arguments (exact arithmetic).", "quantifier": "every order, band type, valid critical frequencies, signal and sample", "why_tests_cant": "all designs and all signals; two output representations through different code", "anchors": ["sci-rs/src/signal/filter/design/butter.rs: butter_dyn", "sci-rs/src/signal/filter/design/iirfilter.rs: cheby1_dyn", "sci-rs/src/signal/filter/sosfilt.rs: sosfilt_dyn"]}
{"id": "C146", "title": "bounds between the measures of spread", "statement": "In exact arithmetic the median absolute deviation is at most twice the standard deviation, and no smaller factor holds for all samples; samples within [lo, hi] have a standard deviation of at most (hi - lo)/2; at most n/t^2 of n z-scores have size t or more; and (n - 1) times the squared RMSSD is at most 4 n times the variance.", "quantifier": "all non-empty samples of any length (z-scores: not all equal), every t > 0", "why_tests_cant": "all samples; that the factor 2 is best possible is a statement about a family of samples", "anchors": ["sci-rs/src/stats.rs: stdev, variance, median_abs_deviation, zscore, rmssd"]}
{"id": "C147", "title": "how large a convolution can get", "statement": "In exact arithmetic, no sample of convolve(x, y, Full), in either order of the arguments, exceeds the sum of the magnitudes of x times the largest magnitude of y; the magnitudes of its samples add up to at most the product of the sums of magnitudes; its energy is at most the energy of y times the squared sum of magnitudes of x. Convolving in Valid mode with non-negative weights that sum to one stays between the smallest and the largest sample.", "quantifier": "all non-empty signals of any lengths (Valid: weights no longer than the signal)", "why_tests_cant": "inequalities for all signals", "anchors": ["sci-rs/src/signal/convolve.rs: convolve"]}
{"id": "C148", "title": "the lowest orders of Savitzky-Golay filtering", "statement": "In exact arithmetic and with a solver returning least-norm solutions, savgol_filter_dyn with polyorder 0 or 1 and deriv 0 returns at every sample the mean of the window (edge samples repeated beyond the ends), so the output stays between the smallest and the largest sample; with polyorder 1 or 2 and deriv 1 it returns the slope of the regression line through the window.", "quantifier": "every signal, odd window and non-zero spacing", "why_tests_cant": "closed forms at every sample of every signal, the ends included", "anchors": ["sci-rs/src/signal/filter/savgol_filter.rs: savgol_filter_dyn, savgol_coeffs_dyn", "sci-rs/src/stats.rs: mean"]}
{"id": "C149", "title": "binomial theorem and sums of comb", "statement": "With overflow checks on, if comb(n, k) returns for k = 0..n, these values are the coefficients of (x + y)^n for all integers x and y; they add up to 2^n, and with alternating signs to 0 for n > 0. They all return, with and without overflow checks, if n < MAX and (n / 2) 2^n <= MAX. If comb(n + 1, k + 1) returns, so does comb(m, k) for m = k..n, and it is their sum.", "quantifier": "every integer type and pointer width, all n and k", "why_tests_cant": "identities between many calls for all arguments of all types, overflow included", "anchors": ["sci-rs/src/special/combinatorics.rs: Combinatoric"]}
