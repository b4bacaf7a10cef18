# Formal model of qsib-cbie/sci-rs in Rocq

## 1. Approach

The crate is numeric and almost every function is generic over a number type
`F`.  The model keeps that genericity: number operations are a record (`Num`) of
*operations without laws*, and every modelled function takes such a record.

* Theorems that hold for **every** `Num` are bit-exact claims: they hold for
  IEEE `f32`/`f64` as well as for exact numbers (streaming, agreement of code
  variants, lengths, panics, causality, termination).
* Theorems about numerical *meaning* (mean, transfer functions, convolution ...)
  are stated at the instance `F = R`, i.e. they say that the algorithm is right
  in exact arithmetic.
* Rounding error is bounded for the statistics (C73-C76, C85, C86), the filter loop (C77), zero-phase filtering (C92, C93), polynomial forms and rational frequency transforms (C94, C95), Butterworth and Chebyshev designs (C102, C103, C106-C109, C112-C116, C119-C121, C123, C124, C126, C129, C132-C135, C137, given an accurate library of elementary functions), the Bessel functions (C79), convolution and resampling (C83, C84) and Savitzky-Golay filtering (C87), at every IEEE 754 binary
  format at once.
* Integer functions are modelled on `Z` with explicit range checks per primitive
  type, in both overflow modes (checked = debug, wrapping = release).

A Rust panic is the value `Panic` of the result type `res`; unsafe writes out of
bounds are the separate value `UB`.  `usize` subtraction is checked (underflow =
`Panic`).  Loops are `fold_left` / structural recursion, or fuelled recursion
with a separate `OutOfFuel` value that the theorems exclude.

File layout in `rocq/theories` (flat):

| prefix | contents |
|---|---|
| `Base.v`, `Num.v`, ... | result monad, number records and their instances |
| `M_*.v` | the model: one definition per Rust function, each citing file and lines |
| `S_*.v` | small independent specifications |
| `P_*.v` | proofs |
| `T_*.v` | property theorems only: `Theorem ... exact lemma. Qed.`, `Print Assumptions`, non-vacuity `Example`s |

Only the standard library is used, except that C72 uses Coquelicot (power series,
derivatives) and C73-C77, C79, C83-C87, C92-C95, C102, C103, C106-C109, C111-C116, C119-C121, C123, C124, C126, C129, C132-C135, C137 use Flocq (rounding); neither adds an axiom of its own.
Flocq's `PrimFloat`, which would load the primitive-float axioms, is not loaded: the
model's floats are the standard library's `SpecFloat`, and `P_Float.v` proves that its
operations are Flocq's.

Naming: `Cnn_...`; `_refuted` = the property is false of the code and the
theorem exhibits a witness; `_partial` = part of the property.

## 2. Plan per property

| id | modelled | proof idea |
|---|---|---|
| C01-C03 | `quickselect`, `median` over a generic order | strong induction on length; sortedness/permutation characterisation of the k-th order statistic; C02 with only irreflexivity of `<`,`>` |
| C04 | `median` over `Z` with machine ranges | expected false (sum of the two middles overflows): witness; positive theorem when no overflow; exact outcome in both overflow modes |
| C05-C09, C11, C12 | `stats.rs` functions over `Num` | at `R`: sums of lists, Cauchy-Schwarz |
| C10 | `autocorr_fast32` with tiles and remainder | expected false (tile assignment overwrites remainder): witness, exact characterisation, correct when 4 divides N-h |
| C13-C15 | `factorial.rs`, all int types, both overflow modes | loop invariants on `partial_product`; tables checked by computation |
| C16-C19 | `combinatorics.rs` | Pascal / recurrences against factorial-quotient and falling-power specifications |
| C20, C21 | `chbevl`, `i0`, `i0e` | recurrence invariant, Chebyshev polynomials; C20 expected false as stated |
| C22, C23 | `companion_dyn` on an index-level matrix | explicit eigenvector; C23 expected false (iterator longer than m) |
| C24-C27 | `sosfilt*` | induction over samples and sections, any `Num` |
| C28, C29 | `lfilter_zi_dyn`, `sosfilt_zi_dyn` | linear algebra at `R` |
| C30, C31 | `odd_ext_dyn`, `pad` index by index | index arithmetic; C31 expected false for Even/Constant |
| C32, C33 | `sosfiltfilt_dyn` | composition of the above |
| C34 | `from_scipy_dyn` | list induction |
| C35, C36 | `savgol_filter.rs`; least squares is an oracle with a contract | Vandermonde interpolation for consistency; binomial expansion |
| C37-C41 | `fftconvolve`, `correlate`, `resample`; FFT = exact DFT | roots of unity orthogonality |
| C42 | `square` | at `R`: case analysis; float corner by `SpecFloat` computation |
| C43, C44 | `poly_dyn`, `zpk2tf_dyn` | polynomial evaluation induction |
| C45, C46 | `cplxreal`, `zpk2sos` | loop invariant: product of emitted sections times remaining factors; C46 expected false |
| C47-C51 | `bilinear_zpk`, `lp2*_zpk` | complex field identities lifted to products; C49, C51 expected false with zeros |
| C52-C54 | `buttap`, `cheb1ap`, `cheb2ap` | roots of unity products, Chebyshev identities |
| C55, C56, C59 | `iirfilter_dyn` option logic | case analysis; C56 and part of C59 expected false |
| C57, C58 | `butter_dyn` | composition of C47-C52 |
| C60 | `mean` over `Z` with machine ranges | as C04: false as stated (sum overflow), positive theorem when prefix sums and count fit; exact outcome in both overflow modes |
| C61 | `sosfilt_dyn` with zero initial state | formal power series: output times the product of denominators is input times the product of numerators |
| C62 | `i0e` with its tables | unfold the recurrence of C20 into the two Chebyshev series of the documentation |
| C63 | `resample` | closed-form interpolation kernel from the DFT contract; linearity |
| C64 | `cheby1_dyn` | composition of C47-C51 and C53 |
| C65, C67 | representations `Ba`, `Sos` of one design | C43/C44 and C45 applied to the zeros and poles that a design produces |
| C66 | `butter_dyn` with `analog` | composition of C48-C52 |
| C69, C70 | `sosfilt_dyn` on infinite signals | left eigenvector of the section's state matrix, geometric bounds on first-order recursions, superposition |
| C71 | designs in sections, filtered | C57/C64 + C67 + C70 |
| C72 | `i0`/`i0e` against the power series of I0 | x <= 8: truncated series and tables as integer polynomials, difference bounded by its Chebyshev coefficients (exact integer computation in the kernel); x > 8: a certified reference polynomial compared with sqrt x e^-x I0 through its differential equation |
| C73 | `mean` at `SFNum prec emax` | induction on the list: each addition has relative error u, the first one none; one division |
| C74 | `variance`, `stdev` at `SFNum` | deviations from the computed mean m' average to V + (m'-mean)^2; errors of subtraction, square, sum, division composed |
| C75 | `median` at `SFNum` | ranks of floats are ranks of their values; half-sum rounded twice stays between its arguments |
| C76 | exactness of `mean`/`variance` at floats | false (witnesses computed); true when all partial sums are exact integers |
| C77 | `sosfilt_dyn` at `SFNum prec emax` against `F = R` | per-step error of one section; the error obeys the section's own recursion, so it is bounded by the gain of a pole pair (convolution with r^n); cascade by Lipschitz continuity |
| C78 | `iirfilter_dyn` with Chebyshev II at F = R | prototype gain curve (C54) carried through `lp2lp`/`lp2bp` and the bilinear map with its imaginary zeros; high-pass and band-stop refuted by computing the DC gain, and high-pass for every order above one because the code's zeros are real |
| C79 | `i0e_f64`, `i0e_f32`, `i0_f64`, `i0_f32` at binary floats | rounding analysis of the Clenshaw recurrence: the computed value is the exact Chebyshev sum of perturbed coefficients plus the effect of the rounded argument, bounded through the sup norm of the partial sums; then C72 for the approximation error; the exponential of i0 is a hypothesis |
| C80 | `sosfiltfilt_dyn` on sinusoids | each pass is compared with the steady state, whose delay values are bounded uniformly in the frequency; the error of the first pass enters the second as a sequence growing geometrically in time, which a stable cascade keeps in proportion (the decay lemma with rate 1/rho) |
| C81 | `zpk2sos_dyn`, `pair_step`, `idx_worst`, `nearest_real_complex_idx_dyn` | specification of the pairing in S_Pairing.v; invariant of the pairing loop: each group of roots is minimal among what is left; the special cases of the code cannot occur because the padded numbers of real roots are even |
| C82 | `butter_dyn`, `cheby1_dyn` with Sos output, the realness test of `cplxreal_dyn` | prototype poles lie on an ellipse at angles at least 1/N (Jordan's inequality) from the real axis; band transformations as quadratics s^2 - b q s + m^2 with explicit bounds on the roots; the bilinear map shrinks the imaginary part by a bounded factor |
| C83 | `fftconvolve`, `convolve`, `correlate` at every IEEE binary format | a calculus of rounding errors (P_Apx.v: `apx k x X A A'`, closed under the float operations); accuracy contract for the FFT; the errors of the two spectra, the products, the inverse transform and the division by the size, composed; exact sums by C37-C39 |
| C84 | `resample` at every IEEE binary format | same calculus and contract; the spectrum copy moves entries without rounding; exact values by C41 and C63 |
| C85 | `rms_fast32`, `lag_diff`, `rmssd`, `stdev`, `autocorr`, `zscore` at every IEEE binary format | the calculus of C83, extended to non-negative sums, square roots and quotients of two inexact values; Sterbenz' lemma for the exact differences |
| C86 | `median_abs_deviation`, `mod_zscore` at every IEEE binary format | the median is monotone (order statistics by counting), so pointwise error bounds of the deviations carry over; then as C85 |
| C87 | `savgol_filter_dyn` at every IEEE binary format | the calculus of C83 applied to the combination proved in C35; the polynomial statement compares with the exact filter of C36 |
| C88 | `cheby1_dyn` with `analog = Some(true)` | as C66 with the Chebyshev I prototype of C53 |
| C89 | digital `butter_dyn`, `cheby1_dyn` | the formulas of C57 and C64; the prototype frequency is strictly monotone in the angle on each side of the centre, T_N strictly increasing beyond 1 |
| C90 | `sosfiltfilt_dyn` on sections from `butter_dyn`, `cheby1_dyn` | C80 with C82 in place of the separation hypothesis |
| C91 | `iirfilter_dyn` with Chebyshev II | the pole-zero calculus of C78 without the bilinear step; monotonicity as in C89 |
| C92 | `sosfiltfilt_dyn` at every binary format | C77 for each pass, C93 for the initial states, linearity and C69 for the effect of perturbed states and inputs |
| C93 | `sosfilt_zi_dyn`, `lfilter_zi_dyn` at every binary format | a calculus of quantities known up to a multiple of the unit roundoff, uniformly over all formats fine enough |
| C94 | `zpk2tf_dyn`, `poly_dyn`, `single_zpksos_dyn` at every binary format | the calculus of C93 for complex numbers and lists, induction on the roots; the branch on conjugate roots changes imaginary parts only |
| C95 | `bilinear_zpk_dyn`, `lp2lp_zpk_dyn`, `lp2hp_zpk_dyn` at every binary format | the calculus of C94 |
| C96 | `resample` in exact arithmetic | the formula of C63, orthogonality of the roots of unity; linearity |
| C97 | `mean`, `median`, `stdev`, `zscore`, `rms_quality` in exact arithmetic | sums of squares; counting the samples on either side of the median |
| C98 | `sosfilt_dyn`, `convolve` | induction on the signal with linearity, causality and time invariance of the cascade |
| C99 | `convolve`, `correlate`, `autocorr` | exchange and shift of finite sums |
| C100 | `cplxreal_dyn` in exact arithmetic | sorting both halves by the same key keeps conjugates aligned; counterexample inside a run |
| C101 | `sort_cplx_dyn`, `poly_dyn` over floats of every format | the order is a total preorder on finite elements; the test on the sorted lists of roots and conjugates succeeds |
| C102 | `butter_dyn`, `cheby1_dyn` over floats of every format with any accurate library of elementary functions | each stage is a continuous (Lipschitz near the exact value) function of its inputs; constants are composed by a calculus of approximations |
| C103 | as C102, with the frequency responses of C57 and C64 | the product of distances to stable poles is bounded below on and outside the unit circle, so responses depend on roots and coefficients in a Lipschitz way |
| C104 | `savgol_filter_dyn`, `savgol_coeffs_dyn` in exact arithmetic | residuals of a best fit have zero moments, hence are orthogonal to least-norm coefficients; best fits exist by orthogonal projection |
| C105 | `butter_dyn`, `cheby1_dyn` in exact arithmetic | the closed forms of C57 and C64 and trigonometric identities between band types |
| C106 | `lp2bp_zpk_dyn`, `lp2bs_zpk_dyn`, `butter_dyn`, `cheby1_dyn` over floats; the complex square root is that of num_complex (axis cases, polar form) | the rounded root squares to nearly the argument, so it is near one of the two exact roots; a pattern of signs says which, and there are finitely many patterns |
| C107 | as C106, with the frequency responses of C57 and C64 | the poles of the rounded filter are put back in order; then as C103 |
| C108 | `zpk2sos_dyn`, `cplxreal_dyn` and the designs over floats | with a symmetric library the rounded roots are conjugate exactly, so splitting into pairs succeeds; whichever pairs are chosen, each float section is near the section of the limits of its roots, one of finitely many; near sections have near poles |
| C109 | as C108, then `sosfilt_dyn` over floats | rounding error (C77) plus the effect of perturbed coefficients on a stable recursion; the exact side does not depend on the splitting by C110 |
| C110 | `sosfilt_dyn` | difference equations as polynomials in the unit delay; equality of rational functions near infinity is equality of coefficients |
| C111 | `square` over floats, `%` as the remainder of significands | the remainder is a number of the format; rounding is monotone; pi to 18 decimals by Machin's formula in rational arithmetic |
| C112 | the section designs of C108 with two edges, over floats | off the real axis the float roots are exactly conjugate because the library is symmetric; on it the square root takes an exact branch; patterns of signs as in C106; then the section stage of C108 |
| C113 | section designs of C108 and C112 followed by `sosfiltfilt_dyn`, over floats | sections, initial conditions and both passes are perturbed stable sections (C92, C94); float and real sections have the same taps because a zero at the origin never occurs; C110 carries the bound to the real design |
| C114 | section designs of C108 and C112 followed by `sosfilt_dyn`, over floats | a tone of any phase is a combination of two, and filtering is linear, so the transient of C70 is uniform in amplitude and phase; what is not a tone in the input is bounded by C69; the rounding by C109 and C112 |
| C115 | `cheb2ap_dyn` and the rest of `iirfilter_dyn` over floats | as C102, C106, C108, C109 and C113; the new stage is the prototype, whose zeros need a range for the sine at each angle, and whose conjugates are exact because the library is symmetric |
| C116 | section designs of C108, C112 and C115 followed by `sosfiltfilt_dyn`, over floats | C80 gives the transients of an exact tone, uniformly in its frequency; linearity and a bound on both passes deal with what is not a tone; C110 makes the constants independent of the order of the sections; rounding by C113 and C115 |
| C117 | `iirfilter_dyn` with analog = true and section output | the zeros each band transform gives an all-pole filter are all real, or conjugate pairs of even number, so C46's analysis of the pairing loop applies; a new invariant of the loop covers an even number of poles with any smaller number of real zeros; clearance from the geometry of the ellipse of poles, as in C82 |
| C118 | `iirfilter_dyn` with ChebyshevII, digital, section output | clearance of poles by C82's lemmas for the mirrored band types, of zeros from their position on the imaginary axis; then C45, C71 and C78 |
| C119 | `cheb2ap_dyn`, `lp2bp_zpk_dyn` and the rest of `iirfilter_dyn`, then `sosfilt_dyn` or `sosfiltfilt_dyn`, over floats | as C106, C107, C112 and C115; new is the transform of the zeros: they are imaginary, also in floats, up to an error that is the same for a zero and its conjugate, so rounding puts the square root of both on the same side of the branch cut or of both on opposite sides, and in each case the pairs stay pairs |
| C120 | the designs of C114 to C119, then `sosfilt_dyn` or `sosfiltfilt_dyn`, over floats | the exact output is linear: take the tones off one by one; the rounding bound of C109, C113, C115 and C119 then holds for the sum as a whole, so that nothing is paid per tone |
| C121 | `sosfilt_dyn` over the reals, with the designs of C67 and C118, and over floats with the designs of C109 to C119 | the signal cut off after N samples has a finite spectrum: Parseval on a grid of frequencies fine enough that the tail of the impulse response does not matter, in both directions; the largest gain from C57, C64 and C78, attained because the band transform takes every prototype frequency; Minkowski for the rounding errors |
| C122 | the sample-level code of `sosfilt_dyn`, `sosfiltfilt_dyn`, the statistics and `savgol_filter_dyn` over SpecFloat at any format; `butter_dyn` with a NaN edge | infinities and NaN absorb under every operation of the code except division by them; a non-finite delay value stays non-finite; a sum that holds an infinity is that infinity or NaN, so the deviation from the mean is NaN |
| C123 | `sosfilt_dyn` over the reals; C77 for floats | the output is the convolution with the impulse response (C98) and the worst signal is its reversed sign; the difference equation of the cascade (C61) applied to the impulse response, summed against powers of 1/z |
| C124 | `sosfiltfilt_dyn` over the reals; C92 for floats | the forward pass is compared with the sections at rest on the signal alone, the backward pass summed against the impulse response and continued to infinity: each step costs a geometric sum; exchange of the finite and the infinite sum |
| C125 | `iirfilter_dyn`, `cheb2ap_dyn`, `zpk2sos_dyn` over the reals | the zeros are on the imaginary axis and never real, except for the one at zero an odd band-pass has; C46's result law and a loop invariant (no real zero, odd number of poles) that makes the pairing panic |
| C126 | `sosfilt_dyn` at any IEEE 754 format | C77's argument with the constant bound replaced by an envelope: a pole of modulus r < rho turns an envelope that falls no faster than rho into 1/(rho - r) times it; fixed point of the float loop for the limit cycle |
| C127 | the functions of `stats.rs` and the two filters at any IEEE 754 format | a relation (same magnitude, flipped or same sign, zeros unsigned) preserved by +, -, *, and / by a common divisor; squares and absolute values become equal; `quickselect` by induction on the fuel, rank k against rank n - 1 - k |
| C128 | `sosfilt_dyn` at any IEEE 754 format | the same relation with equal signs: zeros leave the delays zero; then both runs are related step by step |
| C129 | `mean`, `median`, `rms_fast32`, `zscore`, `mod_zscore`, `sosfilt_dyn` at any IEEE 754 format | every rounded operation is monotone, overflow and NaN included (rounding is monotone, from Flocq; infinities by cases); induction over the loops; `median` through ranks |
| C130 | `savgol_coeffs_dyn`, `savgol_filter_dyn` over R and at any IEEE 754 format | the least-norm solution of p also solves p + 1 because its odd (even) moments vanish by symmetry; windows of the reversed, edge-padded signal; the relation of C127 |
| C131 | `resample` over R, with the FFT contract of C40 | closed form with its cosine kernel (C63); composing two kernels by orthogonality of sampled cosines; cases by the highest kept frequency |
| C132 | `stats.rs` functions and `savgol_filter_dyn` at any IEEE 754 format | rounding commutes with powers of two in the normal range (Flocq); sums stay on the grid of the samples; deviations bounded below; `quickselect` sees the same comparisons; equal quotients of equally scaled numbers |
| C133 | `sosfilt_dyn`, `mean`, `lag_diff` at any IEEE 754 format and over R | multiples of 2^g up to 2^(p+g) are floats, so every operation of the loop is exact; invariant on the two delays; induction over samples and sections |
| C134 | `iirfilter_dyn` over R and at any IEEE 754 format, with any mathematics library | the sampling frequency is used once, in 2 w / fs; doubling is exact and equally scaled numbers have equal rounded quotients; zeros of either sign panic |
| C135 | `odd_ext_dyn`, `companion_dyn` at any IEEE 754 format | entries from C30 and C22; doubling is exact, so one rounding is left; rounding to nearest from Flocq |
| C136 | `resample` over R | from the kernel formula of C63: the kernel has period one and is even; its mean products give a Bessel inequality |
| C137 | `correlate` over R, Full mode | from the formula of C39: Cauchy-Schwarz; a finite signal equal to its own shift is zero; floats from the bound of C83 |
| C138 | `convolve`, `correlate` over R, Full mode | from the formulas of C37 and C39: exchange of sums over a window of integers |
| C139 | `savgol_filter_dyn`, `convolve` over R | both sides from C35 and C38; the clamped index is the index in the continued signal |
| C140 | `zpk2tf_dyn`, `convolve` over R | both sides are the same polynomial of the same length (C44, C138); coefficients are unique |
| C141 | `mean`, `variance`, `median`, `median_abs_deviation`, `mod_zscore` over R | sums split; counting samples below and above the middle ones |
| C142 | `comb`, `comb_rep`, `perm`, `factorial`, `stirling2` on machine integers | C13 and C16-C19 say exactly when each returns and what; the identities hold of the numbers |
| C143 | `lag_diff`, `autocorr`, `rms_fast32`, `convolve`, `correlate` over R | both sides as sums (C09, C11, C12, C38, C39) |
| C144 | `zpk2sos_dyn`, `zpk2tf_dyn`, `convolve` over R | the products of C45 and C44 are the same polynomials of the same length; coefficients are unique |
| C145 | `butter_dyn`, `cheby1_dyn`, `sosfilt_dyn` over R | C65 and C67 give one transfer function; cross-multiplied polynomials in the delay agree (as in C110), and the sections' denominator can be cancelled |
| C146 | `stdev`, `median_abs_deviation`, `zscore`, `rmssd` over R | sums of squares about any point split into variance and offset; half of the samples lie at least the median absolute deviation from the median; -1, k zeros and k ones show that the factor 2 is sharp |
| C147 | `convolve` over R | triangle and Cauchy-Schwarz inequality under the sums, then C99's product of sums |
| C148 | `savgol_filter_dyn` over R | best fits of C104, read off their normal equations; odd powers of the tap times cancel |
| C149 | `comb` on every integer type | induction with Pascal's rule; C16 and C142 say when each call returns |
| C68 | `Sos` output of an analog design | expected false: consequence of C46 |

## 3. What is modelled and what is not

Every public function of `sci-rs/src` outside the list below is modelled, one
definition per function, in the `M_*.v` files:

| model file | source files |
|---|---|
| `M_Stats.v` | `stats.rs` |
| `M_Special.v`, `MachInt.v` | `special/factorial.rs`, `special/combinatorics.rs`; machine integers |
| `M_Bessel.v` | `special/bessel.rs`, `special/xsf/chbevl.rs`, `special/xsf/i0.rs` |
| `M_Linalg.v` | `linalg/companion.rs`; the nalgebra matrix accesses used by it and by `ext.rs` |
| `M_Filter.v` | `signal/filter/{sosfilt,sosfilt_zi,lfilter_zi,sosfiltfilt,ext}.rs`, `design/sos.rs` |
| `M_Savgol.v` | `signal/filter/savgol_filter.rs` |
| `M_Fourier.v` | `signal/convolve.rs`, `signal/resample.rs` |
| `M_Wave.v` | `signal/wave/mod.rs` |
| `M_Complex.v` | the operations of `num_complex::Complex` that the crate calls |
| `M_Design.v` | `signal/filter/design/*.rs` |

Not modelled:

* `plot.rs` (spawns a Python process), `sci-rs-test`, `benches/`: nothing to state.
* `kalmanfilt`, `gaussfilt` (re-exports of other crates).
* Bodies that are `todo!()` (`CauerElliptic`, `BesselThomson`): modelled as `Panic`.
* Performance, allocation failure, stack depth, the `no_std` build.
* Rounding error outside C73-C77, C79, C83-C87, C92-C95, C102, C103, C106-C109, C111-C116, C119-C121, C123, C124, C126, C129, C132-C135, C137.  A theorem "in exact arithmetic" is about the instance `F = R`
  and does not bound the distance of the `f32`/`f64` result from the exact one.
  Theorems marked "any number type" assume no law of arithmetic at all and so
  hold for the actual floats; theorems marked "float" use the stdlib's `SpecFloat`
  (IEEE 754 binary formats, computable).

External code enters as an explicit hypothesis of the theorem that uses it, never
as an axiom:

| crate | contract | where |
|---|---|---|
| `rustfft` | `is_fft`, `is_ifft`: the returned list is the (unnormalised, inverse) DFT sum | C37-C41, C63 |
| `lstsq` | solves the one consistent system it is given | C36 |
| `lstsq` | `solver_least_norm`: returns the solution with the least sum of squares | C104 |
| `core::slice::sort_unstable_by` | `is_sort`: a permutation of the input that is ordered | C43-C46, C57, C58, C64-C68 |
| elementary functions (`exp`, `sin`, `tan`, `asinh`, ...) | at `R`: the stdlib's functions | C21, C42, C52-C58, C62-C67 |
| elementary functions at float types | `accurate_trans`: within `E` unit roundoffs of the real function, relative to 1 + its size; `hypot` and `atan2` likewise; the sign bit of a number other than zero is its sign (of a zero it may be anything) | C102, C103, C106-C109 |
| the same, reflected | `symmetric_trans`: sine and angle odd, cosine and length even, exactly; the length is not negative, and zero at the origin | C108, C109 |
| `sort_by` on lists that hold no NaN | `is_list_sort`: a permutation, in order if the comparison is a total preorder on the elements of that list | C108, C109 |

## 4. Trusted base

* Coq 8.16.1: its kernel and `vm_compute`.
* The correspondence between `/repo` and the `M_*.v` files, which is by reading;
  every definition cites the lines it models and states its simplifications.
* The axioms of the Coq standard library listed by `Print Assumptions` (each `T_*.v`
  prints them at build time).  They come with the stdlib's real numbers and
  classical logic:
  * **D** `ClassicalDedekindReals.sig_forall_dec`
  * **N** `ClassicalDedekindReals.sig_not_dec`
  * **F** `FunctionalExtensionality.functional_extensionality_dep`
  * **C** `Classical_Prop.classic`
* No axiom, `Parameter`, `Admitted`, functor or module type of our own.
* `coqchk -o` additionally lists the fields of the sealed module
  `Coq.ssr.ssrunder.Under_rel`, loaded with Coquelicot; no theorem depends on them
  (`Print Assumptions` shows none of them).

"closed" means "Closed under the global context".

<!-- ASSUMPTIONS BEGIN -->
| property | theorem | axioms |
|---|---|---|
| C01 | `C01_median_total_order` | closed |
| C01 | `C01_median_real` | D F N |
| C01 | `C01_median_real_total` | D F |
| C01 | `C01_median_float` | closed |
| C02 | `C02_median_returns` | closed |
| C02 | `C02_median_returns_float` | closed |
| C03 | `C03_median_perm` | closed |
| C03 | `C03_median_perm_real` | D F N |
| C03 | `C03_median_perm_int` | closed |
| C04 | `C04_median_int_partial` | closed |
| C04 | `C04_median_int_exactly` | closed |
| C04 | `C04_median_int_refuted` | closed |
| C05 | `C05_mean` | D F N |
| C05 | `C05_mean_perm` | D F N |
| C05 | `C05_mean_bounds` | D F N |
| C05 | `C05_mean_affine` | D F N |
| C06 | `C06_variance` | D F N |
| C06 | `C06_variance_affine` | D F N |
| C06 | `C06_empty` | D F N |
| C07 | `C07_zscore` | D F N |
| C08 | `C08_mad` | D F N |
| C08 | `C08_mad_nonneg` | D F N |
| C08 | `C08_mad_affine` | D F N |
| C08 | `C08_mod_zscore` | D F N |
| C08 | `C08_mod_zscore_affine` | D F N |
| C09 | `C09_autocorr` | D F N |
| C10 | `C10_autocorr_fast32_partial` | D F N |
| C10 | `C10_autocorr_fast32_refuted` | D F |
| C11 | `C11_rms` | D F N |
| C12 | `C12_lag_diff` | D F N |
| C13 | `C13_factorial` | closed |
| C13 | `C13_factorial_wrapping` | closed |
| C14 | `C14_factorial2` | closed |
| C15 | `C15_factorialk_partial` | closed |
| C15 | `C15_factorialk_refuted` | closed |
| C15 | `C15_factorialk_release_diverges` | closed |
| C15 | `C15_k1_is_factorial` | closed |
| C16 | `C16_comb_partial` | closed |
| C16 | `C16_comb_refuted` | closed |
| C17 | `C17_comb_rep_partial` | closed |
| C17 | `C17_comb_rep_doc_refuted` | closed |
| C17 | `C17_comb_rep_refuted` | closed |
| C17 | `C17_comb_rep_negative_refuted` | closed |
| C18 | `C18_perm_partial` | closed |
| C18 | `C18_perm_refuted` | closed |
| C19 | `C19_stirling2` | closed |
| C19 | `C19_falling_powers` | closed |
| C20 | `C20_chbevl_partial` | C D F N |
| C20 | `C20_chbevl_refuted` | D F N |
| C20 | `C20_chebT_is_cos` | D F N |
| C21 | `C21_even` | closed |
| C21 | `C21_abs_opp_real` | D F |
| C21 | `C21_abs_opp_float` | closed |
| C21 | `C21_scaling` | C D F N |
| C21 | `C21_scaling_small` | closed |
| C21 | `C21_elementwise` | closed |
| C22 | `C22_companion_eigen` | closed |
| C22 | `C22_real_field` | D F N |
| C23 | `C23_companion_memory_partial` | closed |
| C23 | `C23_companion_memory_refuted` | D F N |
| C24 | `C24_sosfilt_resume` | closed |
| C24 | `C24_sosfilt_blocks` | closed |
| C25 | `C25_sosfilt_variants` | closed |
| C25 | `C25_sosfilt_integer_variant` | closed |
| C26 | `C26_difference_equation_partial` | D F N |
| C26 | `C26_difference_equation_exactly` | D F N |
| C26 | `C26_difference_equation_refuted` | D F N |
| C27 | `C27_cascade` | closed |
| C27 | `C27_linear` | D F N |
| C27 | `C27_shift_invariant` | D F N |
| C27 | `C27_causal` | closed |
| C28 | `C28_lfilter_zi` | D F N |
| C28 | `C28_refusals` | closed |
| C28 | `C28_leading_zeros` | D F N |
| C29 | `C29_sosfilt_zi` | D F N |
| C30 | `C30_odd_ext_rows` | closed |
| C30 | `C30_odd_ext_cols` | closed |
| C30 | `C30_odd_ext_edge_cases` | closed |
| C31 | `C31_pad_partial` | closed |
| C31 | `C31_pad_refuted` | closed |
| C32 | `C32_sosfiltfilt_length` | closed |
| C32 | `C32_sosfiltfilt_ignores_state` | closed |
| C33 | `C33_sosfiltfilt_constant` | D F N |
| C33 | `C33_sosfiltfilt_linear` | D F N |
| C34 | `C34_from_scipy` | closed |
| C35 | `C35_savgol_panics` | closed |
| C35 | `C35_savgol_fir` | closed |
| C35 | `C35_savgol_returns` | closed |
| C35 | `C35_defaults` | closed |
| C36 | `C36_savgol_poly_partial` | D F N |
| C36 | `C36_pderiv_is_derivative` | D F |
| C36 | `C36_system_consistent` | D F |
| C36 | `C36_coeff_moments` | D F N |
| C36 | `C36_high_derivative_zero` | closed |
| C36 | `C36_savgol_poly_refuted` | closed |
| C37 | `C37_convolve_full` | D F N |
| C37 | `C37_convolve_empty_panics` | closed |
| C38 | `C38_convolve_valid_same_partial` | D F N |
| C38 | `C38_convolve_valid_shorter_refuted` | D F N |
| C38 | `C38_convolve_empty_second_panics` | D F N |
| C39 | `C39_correlate_full` | D F N |
| C40 | `C40_resample_length_and_even_identity_partial` | D F N |
| C40 | `C40_resample_odd_exact` | D F N |
| C40 | `C40_resample_same_length_refuted` | D F N |
| C41 | `C41_resample_constant_and_upsampling_partial` | D F N |
| C41 | `C41_resample_one_bin_refuted` | D F N |
| C41 | `C41_resample_odd_upsampling_refuted` | D F N |
| C41 | `C41_resample_odd_upsampling_exact` | D F N |
| C42 | `C42_square_exact_partial` | D F N |
| C42 | `C42_square_duty_panics` | closed |
| C42 | `C42_square_values` | closed |
| C42 | `C42_square_f64_refuted` | closed |
| C43 | `C43_poly` | D F N |
| C44 | `C44_zpk2tf_partial` | D F N |
| C44 | `C44_zpk2tf_exactly` | D F N |
| C44 | `C44_zpk2tf_refuted` | D F N |
| C45 | `C45_zpk2sos_digital_partial` | C D F N |
| C45 | `C45_near_real_refuted` | C D F N |
| C46 | `C46_zpk2sos_analog_partial` | C D F N |
| C46 | `C46_result_law` | C D F N |
| C46 | `C46_fewer_zeros_refuted` | C D F N |
| C46 | `C46_odd_zero_free_refuted` | C D F N |
| C46 | `C46_odd_no_real_zero_refuted` | C D F N |
| C46 | `C46_odd_complex_zeros_refuted` | C D F N |
| C47 | `C47_bilinear` | D F N |
| C48 | `C48_lp2lp` | D F N |
| C49 | `C49_lp2hp_partial` | D F N |
| C49 | `C49_lp2hp_exactly` | C D F N |
| C49 | `C49_lp2hp_refuted` | D F N |
| C50 | `C50_lp2bp` | C D F N |
| C51 | `C51_lp2bs_partial` | C D F N |
| C51 | `C51_lp2bs_exactly` | C D F N |
| C51 | `C51_lp2bs_refuted` | C D F N |
| C52 | `C52_butter_prototype` | C D F N |
| C53 | `C53_cheb1ap` | C D F N |
| C54 | `C54_cheb2ap` | C D F N |
| C55 | `C55_iirfilter_panics_partial` | C D F N |
| C55 | `C55_iirfilter_sos_partial` | C D F N |
| C55 | `C55_iirfilter_bad_panics_sos` | C D F N |
| C55 | `C55_iirfilter_cheby2_refuted` | C D F N |
| C55 | `C55_iirfilter_cheby2_no_rp` | C D F N |
| C55 | `C55_sos_analog_refuted` | C D F N |
| C56 | `C56_cheby2_always_panics_refuted` | C D F N |
| C57 | `C57_butter_digital` | C D F N |
| C57 | `C57_band_ratio_defined` | D F N |
| C57 | `C57_band_ratio_tan` | D F N |
| C58 | `C58_butter_stable` | C D F N |
| C59 | `C59_representation_partial` | C D F N |
| C59 | `C59_cheby1_default_refuted` | C D F N |
| C60 | `C60_mean_int_partial` | closed |
| C60 | `C60_mean_int_exactly` | closed |
| C60 | `C60_mean_int_refuted` | closed |
| C61 | `C61_cascade_transfer` | D F N |
| C62 | `C62_i0e_series` | C D F N |
| C62 | `C62_i0e_at_zero` | D F N |
| C62 | `C62_i0e_branches_meet` | D F N |
| C62 | `C62_f32_tables` | closed |
| C63 | `C63_resample_closed_form` | D F N |
| C63 | `C63_resample_linear` | D F N |
| C64 | `C64_cheby1_digital` | C D F N |
| C65 | `C65_ba_output` | C D F N |
| C66 | `C66_butter_analog` | C D F N |
| C67 | `C67_sos_output` | C D F N |
| C68 | `C68_analog_sos_refuted` | C D F N |
| C69 | `C69_bounded_output` | C D F N |
| C69 | `C69_fading_memory` | C D F N |
| C70 | `C70_frequency_response` | C D F N |
| C71 | `C71_butter_filters` | C D F N |
| C71 | `C71_cheby1_filters` | C D F N |
| C72 | `C72_i0_accuracy` | C D F N |
| C72 | `C72_I0_defined` | D F N |
| C73 | `C73_mean_rounding` | C D F N |
| C74 | `C74_variance_rounding` | C D F N |
| C74 | `C74_stdev_rounding` | C D F N |
| C75 | `C75_median_rounding` | C D F N |
| C75 | `C75_median_overflow_refuted` | closed |
| C76 | `C76_exact_facts_partial` | C D F N |
| C76 | `C76_mean_range_refuted` | D F |
| C76 | `C76_variance_zero_refuted` | D F |
| C77 | `C77_filter_rounding` | C D F N |
| C77 | `C77_section_rounding` | C D F N |
| C78 | `C78_cheby2_digital_partial` | C D F N |
| C78 | `C78_cheby2_highpass_refuted` | C D F N |
| C78 | `C78_cheby2_highpass_all_refuted` | C D F N |
| C78 | `C78_cheby2_bandstop_refuted` | C D F N |
| C79 | `C79_i0e_rounding` | C D F N |
| C79 | `C79_i0e_f64_f32` | C D F N |
| C79 | `C79_i0_rounding` | C D F N |
| C79 | `C79_i0e_special` | closed |
| C80 | `C80_zero_phase` | C D F N |
| C80 | `C80_butter_zero_phase` | C D F N |
| C81 | `C81_nearest_pairing` | C D F N |
| C81 | `C81_worst_last` | C D F N |
| C81 | `C81_minimal_pairing` | C D F N |
| C81 | `C81_analog_worst_last` | C D F N |
| C82 | `C82_butter_clear` | C D F N |
| C82 | `C82_cheby1_clear` | C D F N |
| C82 | `C82_butter_sections` | C D F N |
| C82 | `C82_cheby1_sections` | C D F N |
| C83 | `C83_convolve_rounding` | C D F N |
| C83 | `C83_correlate_rounding` | C D F N |
| C84 | `C84_resample_rounding` | C D F N |
| C84 | `C84_resample_empty_refuted` | C D F N |
| C85 | `C85_rms_rounding` | C D F N |
| C85 | `C85_lag_diff_rounding` | C D F N |
| C85 | `C85_rmssd_rounding` | C D F N |
| C85 | `C85_stdev_rounding` | C D F N |
| C85 | `C85_autocorr_rounding` | C D F N |
| C85 | `C85_autocorr_lag0_exact` | C D F N |
| C85 | `C85_zscore_rounding` | C D F N |
| C86 | `C86_mad_rounding` | C D F N |
| C86 | `C86_mod_zscore_rounding` | C D F N |
| C87 | `C87_savgol_rounding` | C D F N |
| C87 | `C87_savgol_poly_rounding` | C D F N |
| C88 | `C88_cheby1_analog` | C D F N |
| C89 | `C89_butter_monotone` | C D F N |
| C89 | `C89_cheby1_shape` | C D F N |
| C89 | `C89_band_onto` | C D F N |
| C90 | `C90_butter_zero_phase` | C D F N |
| C90 | `C90_cheby1_zero_phase` | C D F N |
| C91 | `C91_cheby2_analog` | C D F N |
| C91 | `C91_cheby2_shape` | C D F N |
| C92 | `C92_filtfilt_rounding` | C D F N |
| C93 | `C93_zi_rounding` | C D F N |
| C94 | `C94_zpk2tf_rounding` | C D F N |
| C94 | `C94_section_rounding` | C D F N |
| C95 | `C95_bilinear_rounding` | C D F N |
| C95 | `C95_lp2lp_rounding` | C D F N |
| C95 | `C95_lp2hp_rounding` | C D F N |
| C96 | `C96_resample_sinusoid` | D F N |
| C96 | `C96_resample_bandlimited` | D F N |
| C96 | `C96_round_trip` | D F N |
| C96 | `C96_nyquist_round_trip_halves` | D F N |
| C97 | `C97_mean_minimises` | D F N |
| C97 | `C97_median_minimises` | D F N |
| C97 | `C97_mean_median_stdev` | D F N |
| C97 | `C97_zscore_bound` | D F N |
| C97 | `C97_rms_mean_variance` | D F N |
| C97 | `C97_median_robust` | D F N |
| C97 | `C97_median_affine` | D F N |
| C97 | `C97_median_monotone` | D F N |
| C98 | `C98_filter_is_convolution` | D F N |
| C98 | `C98_fir_section` | D F N |
| C99 | `C99_commutative` | D F N |
| C99 | `C99_associative` | D F N |
| C99 | `C99_identity_and_delay` | D F N |
| C99 | `C99_linear` | D F N |
| C99 | `C99_sum` | D F N |
| C99 | `C99_correlate_reversed` | D F N |
| C99 | `C99_autocorr_correlate` | D F N |
| C100 | `C100_split_partial` | C D F N |
| C100 | `C100_tolerance_refuted` | C D F N |
| C101 | `C101_sorted` | C D F N |
| C101 | `C101_sorted_real` | D F N |
| C101 | `C101_real_coefficients` | C D F N |
| C102 | `C102_butter_rounding` | C D F N |
| C102 | `C102_cheby1_rounding` | C D F N |
| C103 | `C103_butter_response` | C D F N |
| C103 | `C103_cheby1_response` | C D F N |
| C104 | `C104_savgol_is_local_fit` | D F N |
| C104 | `C104_fit_exists` | D F |
| C104 | `C104_savgol_symmetric` | D F N |
| C104 | `C104_savgol_noise_gain` | D F N |
| C105 | `C105_power_complementary` | C D F N |
| C105 | `C105_mirrored` | C D F N |
| C105 | `C105_order_monotone` | C D F N |
| C106 | `C106_butter_band_rounding` | C D F N |
| C106 | `C106_cheby1_band_rounding` | C D F N |
| C107 | `C107_butter_band_response` | C D F N |
| C107 | `C107_cheby1_band_response` | C D F N |
| C108 | `C108_butter_sos_rounding` | C D F N |
| C108 | `C108_cheby1_sos_rounding` | C D F N |
| C109 | `C109_butter_filter` | C D F N |
| C109 | `C109_cheby1_filter` | C D F N |
| C110 | `C110_transfer_is_behaviour` | D F N |
| C110 | `C110_section_order` | D F N |
| C110 | `C110_realisations_agree` | D F N |
| C110 | `C110_zero_phase` | D F N |
| C111 | `C111_remainder_exact` | C D F N |
| C111 | `C111_square_float` | C D F N |
| C111 | `C111_square_f64_f32` | C D F N |
| C111 | `C111_square_not_finite` | closed |
| C112 | `C112_butter_band_sos` | C D F N |
| C112 | `C112_cheby1_band_sos` | C D F N |
| C112 | `C112_butter_band_filter` | C D F N |
| C112 | `C112_cheby1_band_filter` | C D F N |
| C113 | `C113_butter_filtfilt` | C D F N |
| C113 | `C113_cheby1_filtfilt` | C D F N |
| C113 | `C113_butter_band_filtfilt` | C D F N |
| C113 | `C113_cheby1_band_filtfilt` | C D F N |
| C114 | `C114_butter_tone` | C D F N |
| C114 | `C114_cheby1_tone` | C D F N |
| C114 | `C114_butter_band_tone` | C D F N |
| C114 | `C114_cheby1_band_tone` | C D F N |
| C115 | `C115_cheby2_rounding` | C D F N |
| C115 | `C115_cheby2_response` | C D F N |
| C115 | `C115_cheby2_sections` | C D F N |
| C115 | `C115_cheby2_filter` | C D F N |
| C115 | `C115_cheby2_tone` | C D F N |
| C115 | `C115_cheby2_filtfilt` | C D F N |
| C116 | `C116_butter_zero_phase` | C D F N |
| C116 | `C116_cheby1_zero_phase` | C D F N |
| C116 | `C116_butter_band_zero_phase` | C D F N |
| C116 | `C116_cheby1_band_zero_phase` | C D F N |
| C116 | `C116_cheby2_zero_phase` | C D F N |
| C117 | `C117_butter_analog_sections` | C D F N |
| C117 | `C117_cheby1_analog_sections` | C D F N |
| C117 | `C117_analog_sections_refuted` | C D F N |
| C118 | `C118_cheby2_clear` | C D F N |
| C118 | `C118_cheby2_sections` | C D F N |
| C119 | `C119_cheby2_band_rounding` | C D F N |
| C119 | `C119_cheby2_band_response` | C D F N |
| C119 | `C119_cheby2_band_sections` | C D F N |
| C119 | `C119_cheby2_band_filter` | C D F N |
| C119 | `C119_cheby2_band_tone` | C D F N |
| C119 | `C119_cheby2_band_filtfilt` | C D F N |
| C119 | `C119_cheby2_band_zero_phase` | C D F N |
| C120 | `C120_butter_mixture` | C D F N |
| C120 | `C120_cheby1_mixture` | C D F N |
| C120 | `C120_butter_band_mixture` | C D F N |
| C120 | `C120_cheby1_band_mixture` | C D F N |
| C120 | `C120_cheby2_mixture` | C D F N |
| C120 | `C120_cheby2_band_mixture` | C D F N |
| C120 | `C120_butter_zero_phase_mixture` | C D F N |
| C120 | `C120_cheby1_zero_phase_mixture` | C D F N |
| C120 | `C120_butter_band_zero_phase_mixture` | C D F N |
| C120 | `C120_cheby1_band_zero_phase_mixture` | C D F N |
| C120 | `C120_cheby2_zero_phase_mixture` | C D F N |
| C120 | `C120_cheby2_band_zero_phase_mixture` | C D F N |
| C121 | `C121_energy_and_gain` | C D F N |
| C121 | `C121_butter_energy` | C D F N |
| C121 | `C121_cheby1_energy` | C D F N |
| C121 | `C121_cheby2_energy` | C D F N |
| C121 | `C121_butter_energy_in_floats` | C D F N |
| C121 | `C121_cheby1_energy_in_floats` | C D F N |
| C121 | `C121_butter_band_energy_in_floats` | C D F N |
| C121 | `C121_cheby1_band_energy_in_floats` | C D F N |
| C121 | `C121_cheby2_energy_in_floats` | C D F N |
| C121 | `C121_cheby2_band_energy_in_floats` | C D F N |
| C122 | `C122_sosfilt_never_recovers` | closed |
| C122 | `C122_sosfilt_nan` | closed |
| C122 | `C122_sosfiltfilt_all_lost` | closed |
| C122 | `C122_statistics` | closed |
| C122 | `C122_savgol` | closed |
| C122 | `C122_nan_edge_accepted` | closed |
| C123 | `C123_peak_and_impulse_response` | D F N |
| C123 | `C123_peak_gain` | C D F N |
| C123 | `C123_peak_above_response` | C D F N |
| C123 | `C123_bounded_only_if_cancelled` | C D F N |
| C123 | `C123_bounded_iff_stable` | C D F N |
| C123 | `C123_peak_in_floats` | C D F N |
| C124 | `C124_zero_phase_kernel` | C D F N |
| C124 | `C124_reversal` | C D F N |
| C124 | `C124_kernel_in_floats` | C D F N |
| C125 | `C125_cheby2_analog_sections` | C D F N |
| C126 | `C126_rounding_follows_signal` | C D F N |
| C126 | `C126_section_follows_signal` | C D F N |
| C126 | `C126_dies_out` | C D F N |
| C126 | `C126_limit_cycle_bound` | C D F N |
| C126 | `C126_silence_not_reached` | D F N |
| C127 | `C127_sosfilt_mirror` | closed |
| C127 | `C127_sosfiltfilt_mirror` | closed |
| C127 | `C127_stats_mirror` | closed |
| C127 | `C127_autocorr_mirror` | closed |
| C128 | `C128_delay` | closed |
| C129 | `C129_not_above_le` | C D F N |
| C129 | `C129_mean_monotone` | C D F N |
| C129 | `C129_mean_monotone_finite` | C D F N |
| C129 | `C129_median_monotone` | C D F N |
| C129 | `C129_rms_monotone` | C D F N |
| C129 | `C129_zscore_order` | C D F N |
| C129 | `C129_mod_zscore_order` | C D F N |
| C129 | `C129_sosfilt_monotone` | C D F N |
| C130 | `C130_order_pairs` | D F N |
| C130 | `C130_reversal` | D F N |
| C130 | `C130_mirror` | closed |
| C131 | `C131_two_steps` | D F N |
| C131 | `C131_up_and_back` | D F N |
| C131 | `C131_mean_kept` | D F N |
| C132 | `C132_scale` | C D F N |
| C132 | `C132_unit_free` | C D F N |
| C132 | `C132_savgol` | C D F N |
| C133 | `C133_filter_exact` | C D F N |
| C133 | `C133_fir_exact` | C D F N |
| C133 | `C133_mean_nearest` | C D F N |
| C133 | `C133_mean_order` | C D F N |
| C133 | `C133_lag_diff_exact` | C D F N |
| C134 | `C134_ratio` | C D F N |
| C134 | `C134_default` | C D F N |
| C134 | `C134_ratio_floats` | C D F N |
| C134 | `C134_default_floats` | C D F N |
| C135 | `C135_odd_ext_rows` | C D F N |
| C135 | `C135_odd_ext_cols` | C D F N |
| C135 | `C135_companion` | C D F N |
| C136 | `C136_turned` | D F N |
| C136 | `C136_backwards` | D F N |
| C136 | `C136_exchange` | D F N |
| C136 | `C136_power` | D F N |
| C137 | `C137_bounded` | D F N |
| C137 | `C137_delay_found` | D F N |
| C137 | `C137_delay_noise` | D F N |
| C137 | `C137_delay_floats` | C D F N |
| C138 | `C138_product` | D F N |
| C138 | `C138_correlate` | D F N |
| C138 | `C138_sizes` | D F N |
| C139 | `C139_savgol_convolve` | D F N |
| C140 | `C140_cascade` | D F N |
| C141 | `C141_mean_join` | D F N |
| C141 | `C141_variance_join` | D F N |
| C141 | `C141_median_join` | D F N |
| C141 | `C141_mad_robust` | D F N |
| C141 | `C141_outlier` | D F N |
| C142 | `C142_symmetry` | closed |
| C142 | `C142_pascal` | closed |
| C142 | `C142_perm_comb` | closed |
| C142 | `C142_comb_rep` | closed |
| C142 | `C142_stirling` | closed |
| C143 | `C143_differences` | D F N |
| C143 | `C143_autocorr` | D F N |
| C143 | `C143_rms` | D F N |
| C144 | `C144_sections` | C D F N |
| C145 | `C145_ba_run` | C D F N |
| C146 | `C146_mad_stdev` | D F N |
| C146 | `C146_mad_stdev_sharp` | D F N |
| C146 | `C146_range` | D F N |
| C146 | `C146_zscore_count` | D F N |
| C146 | `C146_rmssd` | D F N |
| C147 | `C147_peak` | D F N |
| C147 | `C147_mass` | D F N |
| C147 | `C147_energy` | D F N |
| C147 | `C147_average` | D F N |
| C148 | `C148_moving_average` | D F N |
| C148 | `C148_no_overshoot` | D F N |
| C148 | `C148_slope` | D F N |
| C149 | `C149_binomial` | closed |
| C149 | `C149_row` | closed |
| C149 | `C149_row_returns` | closed |
| C149 | `C149_hockey_stick` | closed |
<!-- ASSUMPTIONS END -->

## 5. Findings: where the code does not do what a user expects

Each is a theorem named `_refuted` (a concrete witness), or a law that says exactly
what is computed instead.

1. `autocorr_fast32` drops the terms after the last full group of four (C10).
2. `chbevl` processes the first coefficient twice (C20).
3. `cheby2_dyn` panics for every argument: `iirfilter_dyn` checks `rp` where it needs `rs` (C56).
4. `cheby1_dyn` without a band type designs a band-pass, contrary to its documentation (C59).
5. `lp2hp_zpk_dyn` and `lp2bs_zpk_dyn` are wrong for filters with finite zeros (C49, C51).
6. `zpk2tf_dyn` pads with zeros on the right, so the ratio is wrong unless there are as
   many zeros as poles (C44).
7. `zpk2sos_dyn` for analog filters with fewer zeros than poles multiplies the transfer
   function by a power of s (a low-pass becomes a high-pass); zero-free filters of odd
   order panic (C46, C68).  So every analog low-pass and band-pass design with section
   output is wrong or panics, every high-pass and band-stop one is right (C117).
   For analog Chebyshev II low-pass and band-pass designs this means: right for even
   orders, a panic or a filter multiplied by s for odd ones (C125).
8. `zpk2sos_dyn` panics when a conjugate pair lies within the tolerance of the real axis (C45).
9. `factorialk` overflows its loop counter although the value fits; in release builds it
   can loop for ever (C15).
10. `comb`, `comb_rep`, `perm` overflow in intermediate values although the result fits;
    `comb_rep` contradicts its documentation for n < k (C16-C18).
11. `companion_dyn` writes outside the matrix when the iterator is longer than `m` (C23);
    `lfilter_zi_dyn` panics for filters of length 1 (C28).
12. `sosfilt` ignores `a[0]` (C26).
13. `pad` panics for `Even` and `Constant` (C31).
14. `fftconvolve` panics on empty inputs, and `Valid` returns nothing when the first input
    is the shorter one (C37, C38).
15. `resample` to the same odd length is not the identity; one remaining bin gives zeros;
    upsampling from odd lengths does not interpolate (C40, C41).
16. `square` with duty 1 returns -1 for tiny negative times in f64 (C42).
17. Integer `median` and `mean` overflow (C04, C60).
18. `savgol_filter_dyn` with `deriv >= 21` overflows the factorial (C36).
19. `cheb2ap_dyn` with order 0 returns gain 1.
20. `zpk2sos_dyn` with minimal pairing can panic on odd orders with several real poles.
    Witness: poles -1, -2, -3 and zeros -2, 100i, -100i (C46_odd_complex_zeros_refuted);
    with real zeros only it always succeeds. As a consequence `iirfilter_dyn` with valid
    arguments and analog `Sos` output panics for odd low-pass orders (C55_sos_analog_refuted).
21. At f64 the mean of equal samples can differ from the sample, and their variance can be
    positive (so `zscore` of a constant signal may be finite non-zero instead of NaN) (C76).
22. `median` of two f64 values above half the largest float is infinite (C75).
23. Chebyshev II high-pass and band-stop designs are wrong, because `lp2hp_zpk_dyn` and
    `lp2bs_zpk_dyn` mishandle zeros: the order 2 high-pass passes DC at 36 times the
    promised maximum, every band-stop of order 2 or more has gain 0 everywhere (C78).
24. `resample` of an empty signal to n >= 1 values returns n values that are infinite or NaN
    (0 times 1/0), provided the FFT crate accepts length 0 (C84).
25. `resample` treats the component at half the sampling rate of an even length differently
    when going up and when going down, so that upsampling and then downsampling to the
    original length halves it (C96).
26. `cplxreal_dyn` panics on lists whose elements pair up with conjugates within the
    tolerance it documents: inside a run of nearly equal real parts it sorts the zipped
    pairs by the imaginary part of the second component instead of sorting each half by
    itself, so a pair zipped wrongly is never corrected (C100).
27. A NaN edge is not refused: the checks of `iirfilter_dyn` compare with `<=` and `>=`, which
    are false for NaN, so the design succeeds and every pole is NaN (C122).

## 6. Testing the theorems against wrong programs

`seeded/LOG.jsonl` records edits of the model made in a scratch copy.  Not all entries
were obtained in the same way; the field `evidence` of each line says how.

- 267 entries: edit one definition, rebuild; every lemma whose proof breaks is cut off in
  the scratch copy and the build resumed, so that all directly broken lemmas are found;
  then `Print Assumptions` tells which property theorems rest on a broken lemma.
- 105 entries: the same, but only the modules named in `evidence` and what they need were
  rebuilt; theorems of other modules may fail too.
- 337 entries (most of the later ones): the build stopped at its first error.  Only
  `first_broken_lemmas` was observed.  `theorems_failed` is the list of property theorems
  that depend on that lemma according to a search of names in the sources, and
  `claim_broken` is the list of their properties.  These theorems were not rebuilt one by
  one, so these entries show that the edit is noticed, but not that each listed theorem
  by itself excludes it.
- 10 entries were completed or narrowed by hand, and 7 (`r01`-`r07`) were run by hand
  without keeping the output.
- 11 entries did not break the build.  For 9 the edited program was judged equivalent, or the
  definition unused, by reading, not by proof; one of these 9 (`a270`) was stopped before it
  finished.  The other 2 (`a251`, `a020`) showed theorems that were too weak, and these were
  tightened.

Not logged: 55 edits that do not typecheck in the model or do not apply, a repeat of `y19`, and two
(`tuple_windows`, `tuples6`) whose run could not be completed.  A wrong program whose claim's
theorems all survive means that the theorem was too weak.  A few edits are deliberately
harmless ("claim_broken": "none") to see that proofs fail for a reason.
