# Formal model of rdireen/spherepy in Rocq (Coq 8.16.1)

## 1. Approach

The code is modelled function by function as shallow Gallina functions:
Python exceptions are values (`res A := Ok a | Raise e`), an object that a
method mutates is returned as a new value, numpy 1-D arrays are lists, 2-D
arrays are row-major flat lists with a shape, `for` loops are folds and
`while` loops take explicit fuel whose exhaustion is an error value.  Python
ints are `Z`.  Numbers are abstract: the model is parametric in a record
`num` of arithmetic operations, so that container theorems hold for *every*
arithmetic (binary64 included), while theorems that need algebra are stated
at the exact instance (complex numbers over Coq's reals).

C code is modelled over flat buffers; every access is bounds-checked and an
access outside the buffer is the error value `OutOfBounds`.

## 2. Per-property plan

| id | model | proof |
|----|-------|-------|
| C01 | `mindx`, `ScalarCoefs.__init__`, `size` | closed form of the mindx loop; column blocks tile `[0,size)`; injectivity/surjectivity by arithmetic |
| C02 | `__setitem__`/`__getitem__` | refinement to a finite map on modes, induction on the history |
| C03 | same | case analysis on every guard; (state,result) pairs show no change on error |
| C04 | same | column/row slices as lists of modes, write/read lemma over the write loop |
| C05 | `__getitem__` slice/slice branch | loop invariant over the copied columns |
| C06 | `window` | loop invariant over m |
| C07 | `angular_power_spectrum`, `power` | permutation of a sum (exact arithmetic) |
| C08, C09, C10 | operator decorators | mode-wise read of a zipped list; witness for the size collision |
| C11, C12, C13 | `VectorCoefs` | invariant over histories, broadcasting modelled |
| C14 | factories | direct, random draws as an arbitrary oracle |
| C15, C16 | `_array_2d_repr`, `pretty_coefs` | loop invariant; placeholder table |
| C17-C21 | `continue_sphere`, `double_sphere`, patterns | cell-wise characterisation, index arithmetic |
| C22 | norms | sums of squares / maxima at the exact instance |
| C23 | `ynnm`, `ynunm` | sequence algebra: three-term recurrence, ladder relations, ODE, uniqueness of the downward recursion, Sturm-Liouville orthogonality |
| C24-C28, C51, C52 | `spht`..`vispht`, `ops.py`, `pysphi.py` | DFT inversion + C23 |
| C29, C30 | argument guards | case analysis |
| C31, C32 | `csphi.c` over checked buffers | loop invariants; refinement to the Python model |
| C33, C34 | `kiss_fft.c` | induction on the factor list; DFT decimation identity |
| C35 | smooth-size search | well-founded argument with fuel bound, minimality |
| C36 | `s_data`, `hkm_fc` | convolution theorem + index collision analysis |
| C37-C41 | `file.py` at character level | parser/printer round trips; integer proof of 17-digit identification |
| C42-C45 | `sbessel.py` | loop invariants over R |
| C46, C47, C48 | store of array buffers, objects holding references, histories of calls | frame/footprint specification of every call, separation invariant over histories, refinement of the store model to the value model |
| C49, C50 | `sph_harmonic_tp`, `use_cext` | direct |
| C53 | `vispht` | C51 operators on the harmonic series, Fourier inversion |
| C54, C55 | `ScalarPatternUniform`, `spht`, `power`, both backends | Riemann integrals of e^{ikx} (Coquelicot); the code's convolution is that integral; linearity of the integral, orthonormality |
| C56 | `ispht`, `spht`, both backends, arbitrary patterns | symmetries of the DFT coefficients and of the harmonics' Fourier coefficients |
| C57 | `verify.py` | composition of C08, C19, C24, C25, C28, C31 (norms as sums/maxima over all modes or grid points); file versions from C37 |
| C58 | `plot_sphere.py`: the list of drawing calls each routine makes | linspace/meshgrid/hstack entry by entry, extrema of lists; C22, C24 for the magnitudes |
| C62 | `__repr__`, `__str__`, `pretty_coefs` (`MPrint`) | texts cut at the first separator; the formatter of one number is a parameter |
| C63 | `csphi.c`, `kiss_fft.c` with every int checked (`MCint`) | refinement relation between the checked and the unchecked run (same outcome, or overflow), bounds on every int; inversion of a successful run at the largest index for the converse; Flocq for `floor(sqrt(n))` |
| C64 | numpy element types of the coefficient arrays and the argument checks of `csphi_wrap.c` (`MDtype`) | induction over the expressions that make a ScalarCoefs (values fit the type; acceptable to the C extension); window with a cast at each store; equality with the value model of C24, C31, C63 where accepted, TypeError elsewhere |
| C65 | `ynnm`, `ynunm` and the sums over their tables in both implementations, every operation in binary64 (`MDouble`) | relative error of each operation from Flocq, product of the errors down to the smallest normal number; underflow of the first loop stuck at 2^-1074; NaN propagation through any order of summation; exact integers below 2^53 for bit equality |
| C66 | `sbessel.py` with every operation in binary64 (`MSbesselF`) | while loop: the exact ratio j_n/j_(n-1) as a limit of the iterates (C43), the rounded iterates tracked by an invariant with 20 steps; backward recurrence contracts errors; forward product accumulates them; underflow by an absolute term; y_n by relative error of a subtraction whose second term is small; overflow by a lower bound on the growth; termination because u rounds to 1 once 4n^2-1 is large |
| C67 | the tables of `ynunm` in both implementations (`MDouble`) | how a perturbation of the recurrence spreads, in three regimes (`TabPert`): order 0 has a quantity that is constant but for rounding; where the entries alternate in sign and grow relative errors add up; elsewhere a positive definite quadratic form divided by a known function of the index does not increase; the exact table bounded by Unsoeld's theorem, sum over m of abs(Y_n^m)^2 constant, proved from the Legendre equation (`Unsold`); one rounded step has error 4u relative to its two terms plus an underflow term (`TabFl`) |
| C68 | `ispht` of both backends (`MTrans`), `L2_coef` (`MCoefs`) | the value is the harmonic series of C24; Cauchy-Schwarz over the modes and Unsoeld's theorem summed over the degrees give the constant; attained by sqrt(2n+1) at order 0, evaluated at the pole |
| C69 | the loops of `bnm_vec_fc`/`bnm_fc` and `fc_to_sc` of both backends in binary64 (`MDouble`), given the data h the FFTs produced | `SumFl`-`SumFl3`: forward error analysis of the tables (C67) times the data, summed in any order (`sums`), times the power of 1j; error at most (n+1)(1+sqrt((2n+1)/4pi))(B(48(n+1)^3/2^53 + 12 ew) + 16/2^1074) per component for data bounded by B; and against the exact-arithmetic `fc_to_sc` when h is within delta of the exact data |
| C70 | the loops of `fcvec_m_sc` of both backends in binary64 (`MDouble`) | the same analysis per column (`SumFl4`), including the mirrored rows; against the exact `fcvec_m_sc` on the values the doubles denote |
| C71 | `sbesselj_sum` (`MSbessel`), exact arithmetic | `BesselSum`: the derivative of the partial sum telescopes to -2N j_(N-1) j_N, mean value theorem from 0, series bound on j_n; then the model of the routine on top of C43 |
| C72 | `kiss_fft.c` in binary64 (`MKissF`), cos and sin of the math library any functions within delta | `KissFl*`: error of each butterfly relative to the largest input (induction over the generic one), induction over the factor list as in C33, error of the rounded phase, cos/sin 1-Lipschitz |
| C73 | `fc_to_sc` of csphi.c as a whole in binary64 (`MCsphiF`: SData, `hkm_fc` with its FFTs from `MKissF`, the scaling; the sums from `MDouble`) | `KissFl5`, `KissFl6`: the FFT error relative to the sum of the moduli of the inputs; `HkmF`, `HkmF2`: SData has moduli summing to at most 2(log2 Q + 1), errors of product, inverse FFT and scaling; `HkmF3`: the routine is a refinement of the sums of `MDouble` run on what `hkm_fc` returns; then C69 |
| C74 | `ispht` with the C backend in binary64 (`MTransF`: `sc_to_fc` as a whole, the two scalings; `np.fft.ifft2` a parameter) | `TransF`: the columns written by `fcvec_m_sc` (C70) tile the array and the rest stays zero, so its moduli sum to at most modes times the largest entry; error of the inverse transform by the hypothesis, of the exact transform of the wrong entries by the triangle inequality, two roundings for the scalings; the exact synthesis is the series (C24) |
| C75 | `spht` with the C backend in binary64 (`MTransF`: scaling, `fix_even_row_data_fc`, `pad_rows_fdata`, `sin_fc`, `fc_to_sc` as a whole; `np.fft.fft2` a parameter) | `TransF2`: every entry of the padded array is near the truncated exact Fourier coefficient, every entry of `sin_fc`'s result near the exact product; C73 bounds the distance to the exact sums of that array, and the sums are linear and bounded in the array, so its distance to the exact array is carried through |
| C76 | C74 then C75 | C75 with the exact synthesis as the exact data and the tolerance of C74 as its distance; the exact spht of the exact synthesis is the coefficient (C25); `harm_bound` (Unsöld) for the size of the samples |
| C77 | `ispht` with the Python backend in binary64 (`MTransP`: `sc_to_fc` with the columns of `MDouble`, scaling; `np.fft.ifft2` and `1j ** m` parameters) | `TransP`: every entry of the Fourier array is within C70's bound and untouched entries are zero; `ispht_tail` (shared with C74) for the inverse transform and the scaling; agreement of the backends by the triangle inequality with C74 |
| C78 | pysphi's `fc_to_sc` in binary64 (`MHkmP`: `s_data` with CPython's quotient -1j / nu, the padding and both halves of the column, `np.fft.fft`/`ifft` parameters, `4 * np.pi`) | `HkmP`: s_data entry by entry, the errors of the two transforms, the product and the inverse through the convolution theorem; the convolution equals the linear one because the half row is zero; then C69 against exact data |
| C79 | `spht` with the Python backend in binary64 (`MHkmP`: `fp_spht`) | `f_spht_front` (`TransF2`, shared with C75) for everything before `fc_to_sc`, C78, agreement of the backends by the triangle inequality with C75 |
| C80 | `ispht` then `spht`, Python backend, binary64 | C77 and C79 with the exact round trip (C25); as C76 |
| C81 | the powers `1j ** m` as the interpreter computes them (`MIpow`: CPython's complex power, by squaring for `|m| <= 100`, else `cos`/`sin` of a rounded phase) | induction over the binary exponent: every intermediate value is ±1 ± 0j or ±0 ± 1j, so all operations are exact; otherwise the error of the phase at·m and the Lipschitz bound of cos and sin; then C80 with these powers |
| C82 | `dtheta_fc`, `dphi_fc`, `sin_fc`, `divsin_fc`, `sinLdot_fc`, `L_fc` in binary64 (`MOpsF`, as `MOps` line by line with numpy's complex double operations) | `OpsF`: each operator maps an array within d of an exact one to an array within a bound of the exact operator's result; multiplication by +-1j, +-2j only changes signs and doubles; induction over the rows of the `divsin_fc` recursion (error grows with the square of the number of rows); with C51 for the round trip |
| C83 | `nvec` and its application by `window` in binary64 (`MVecF`: the factor; the window is `sc_window` at the number structure of doubles) | relative error through sqrt and the quotient; n (n + 1.0) is exact below 2^53; the product by a real factor rounds each part once; C06's characterisation of `window` gives every coefficient |
| C84 | `f_vispht` (`MVTransF`) with either backend's `sc_to_fc` (`MTransF`, `MTransP`), `f_normalise` (`MVecF`), `f_L_fc` (`MOpsF`); np.fft.ifft2 a parameter | errors through the stages (`VTransF`): Fourier sums by C70 on normalised coefficients, their distance to the sums of the exactly normalised ones, `L_fc` by C82's lemmas against its closed form, the two combinations, the inverse transform; then `synth_Tm` (C53) identifies the exact result with the vector harmonic series |
| C61 | `TransversePatternUniform`, `vspht`, both backends | the two coefficient sums of vspht as functionals of the 2-D Fourier coefficients of the stored arrays, and how rotation, conjugation and reflections move those |
| C59, C60 | `TransversePatternUniform`, `vspht`, `VectorCoefs`, both backends | integration by parts for trigonometric polynomials turns the code's sin(theta) L. operator into the integral against the vector harmonics; orthonormality, Parseval |



`properties.jsonl` is generated by `tools/gen_props.py`, `MANIFEST.json` by
`tools/gen_manifest.py` from the theorems named `Cnn_...` in the files
`rocq/theories/P_*.v`.

## 3. Files

Each `M*.v` file is model (every definition cites file and lines of /repo),
each `Spec*.v` file is specification written independently of the model's
helpers, `*Facts*.v` and the mathematical files hold lemmas, `P_*.v` holds the
property theorems, their non-vacuity examples and `Print Assumptions`.

| layer | files |
|---|---|
| Python/numpy primitives (exceptions, slices, negative indices, broadcasting, loops) | `Py`, `PyFacts`, `Num` (the `num` interface), `Exact` (reals/complex), `FloatN` (binary64) |
| coefficient containers | model `MCoefs`; spec `SpecCoefs`; `CoefsFacts*`, `Obs`; `P_Coefs` |
| patterns, norms, factories | model `MPatt`; spec `SpecPatt`; `PattFacts`; `P_Patt` |
| pure-Python transforms | model `MPysphi` (pysphi.py), `MOps` (ops.py), `MTrans` (spht...); spec `SpecHarm`, `SpecOps`; `Sums`, `Harm`, `Smooth`, `Dft`, `PysphiFacts`, `TransFacts*`, `HarmFacts`, `VHarm`; `P_Trans`, `P_Trans2`, `P_Lin`, `P_Ops`, `P_Harm` |
| C extension | model `MKiss` (kiss_fft.c), `MCsphi` (csphi.c), `MCint` (both with 32 bit ints), `MDtype` (element types, csphi_wrap.c); spec `SpecDft`; `KissFacts*`, `CsphiFacts`, `CintFacts*`, `DtypeFacts`; `P_Kiss`, `P_Csphi`, `P_Cint`, `P_Dtype` |
| double precision tables | model `MDouble`; `FlFacts`, `SeedReal`, `SeedFl`, `SeedFl2`, `DoubleFacts`, `TableEq`; `P_Double` |
| Bessel functions in double precision | model `MSbesselF`; `FlSigned`, `SbesselFTerm`, `SbesselFNan`, `SbesselFRel`, `SbesselFLoop`, `SbesselFAcc`, `SbesselFMain`, `SbesselFY`, `SbesselFFun`; `P_SbesselF` |
| FFT and C spht in double precision | models `MKissF`, `MCsphiF`, `MTransF`; `KissFl` ... `KissFl6`, `HkmF`, `HkmF2`, `HkmF3`; `P_KissF`, `P_CsphiF`, `TransF`, `P_TransF`, `TransF2`, `P_TransF2`, `MTransP`, `TransP`, `P_TransP`, `MHkmP`, `HkmP`, `P_HkmP`, `P_HkmP2`, `MIpow`, `P_Ipow`, `MOpsF`, `OpsF`, `P_OpsF`, `MVecF`, `P_VecF`, `MVTransF`, `VTransF`, `P_VTransF` |
| files | model `MText` (format/float/int/split), `MFile` (file.py); spec `SpecFile`; `TextFacts`, `FloatText`, `FileFacts*`; `P_File` |
| Bessel functions | model `MSbessel`; spec `SpecBessel`; `Bessel*`, `SbesselFacts*`; `P_Sbessel` |
| integrals and symmetries | `SpecInt`, `Integ`, `Integ2`, `Symm`, `VInteg`; `P_Integral`, `P_Both`, `P_Sym`, `P_VInteg`, `P_VSym` |
| verification routines | model `MVerify` (verify.py); `P_Verify`, `P_VerifyFile` |
| plotting | model `MPlot` (plot_sphere.py); `P_Plot` |
| printing | model `MPrint` (`__repr__`, `__str__`, pretty_coefs); `P_Print` |
| storage and aliasing | model `MHeap`; spec `SpecHeap`; `HeapFacts*`, `HeapRef*`; `P_Heap` |

## 4. Trusted base

1. Coq 8.16.1's kernel (`coqc`); no plugin, no axiom of ours, no `Admitted`.
2. The axioms listed by `Print Assumptions`: see `ASSUMPTIONS.md` for each
   theorem.  They are only
   `ClassicalDedekindReals.sig_forall_dec`, `ClassicalDedekindReals.sig_not_dec`,
   `FunctionalExtensionality.functional_extensionality_dep` (all three used by
   the standard library's construction of the reals) and
   `Classical_Prop.classic` (through Coquelicot / Flocq).  The container
   theorems that hold for every arithmetic are closed under the global context.
3. The correspondence between the Gallina model and /repo, definition by
   definition (comments cite the lines), and the following readings of what
   lies outside /repo:
   * **numpy** element-wise operations, slicing, negative indices, broadcasting
     of 1-D operands, `concatenate`, `np.zeros/ones`, views vs. copies: modelled
     explicitly in `Py.v`, `MHeap.v`;
   * **np.fft.fft/ifft/fft2/ifft2** are modelled by the defining DFT sums;
   * **arithmetic**: transform theorems (C23-C31, C33, C36, C49, C51-C53) and
     Bessel theorems (C42-C45) use exact real/complex arithmetic.  Rounding
     is modelled for the tables of harmonics (`MDouble`/C65, C67: +, -, *, /,
     sqrt correctly rounded, C compiled without contraction or extra precision),
     for the sums over them (C69, C70: the data handed to the sums are arbitrary
     bounded doubles, np.sum may add in any order, 1j**m within a stated error),
     for `kiss_fft.c` (`MKissF`/C72), the C `fc_to_sc` (`MCsphiF`/C73), `spht`
     and `ispht` with the C backend (`MTransF`/C74-C76) and with the Python
     backend (`MTransP`, `MHkmP`/C77-C80), the powers 1j**m of the interpreter
     (`MIpow`/C81) and for `sbessel.py` (`MSbesselF`/C66); libm's sin and cos,
     x**2 and the `np.fft` routines are parameters of stated accuracy there.
     The operators of `ops.py` are modelled in doubles too (`MOpsF`/C82), and so is
     the normalisation of the vector transforms (`MVecF`/C83) and `vispht` with
     both backends (`MVTransF`/C84); `vspht` as a whole and the patterns of
     the spherical sampling are modelled in exact arithmetic only.
     Container theorems are parametric
     in the arithmetic; the file theorems (C37-C41) use IEEE binary64
     (`SpecFloat`, round-to-nearest-even); complex division in `FloatN` is the
     textbook formula;
   * **Python text functions** `format(x, '.16e')`, `float()`, `int()`,
     `str.split`, `readlines` are modelled in `MText.v` on ASCII text
     (underscores in numerals and non-ASCII digits are not accepted by the
     model); a file is its contents and an interrupted write leaves a prefix;
   * **C**: in `MKiss`, `MCsphi` `int` arithmetic is arithmetic in Z, and
     C31-C35, C50 are about that reading (their hypotheses `3*rows <= 2^31`,
     `n < 2^31` bound the lengths of the transforms, they do not by themselves
     exclude an overflow of an index).  `MCint` repeats both files with every
     computed int checked to fit in 32 bits, and C63 proves the exact range in
     which the two readings agree: Fourier tables of at most 2^31 entries.
     Converting `floor(sqrt((double)n))` is done there in IEEE binary64 (with
     `SFsqrt`).  `size_t` and pointers are not bounded.  `malloc` returns a
     buffer of arbitrary contents and never fails; everywhere but in
     `MDtype`/C64 the SWIG wrapper `csphi_wrap.c`/`numpy.i` passes pointers and
     sizes faithfully;
   * **random numbers** are an arbitrary function (an oracle);
   * **dtype**: outside `MDtype` arrays are complex everywhere.  `MDtype`/C64
     give a ScalarCoefs the layout of its array (int64 without wrap-around,
     float64, complex128; dimension, contiguity, byte order as flags) and the
     class of nmax/mmax, with numpy's promotion and casting rules as stated at
     the head of that file; `c[n,:] = v` into a real array, other element types
     and Python lists passed where arrays are documented are not modelled;
   * a function of `MSbessel` that would divide by zero in `sbesselj` stops with
     an error where numpy yields inf/nan (`MSbesselF` has both readings).

## 5. What is modelled and what is not

Modelled: `spherepy/spherepy.py` (ScalarCoefs, VectorCoefs,
ScalarPatternUniform, TransversePatternUniform with all their operators and
index forms, factories, abs/mag/mag2, compare_relative, continue_sphere,
double_sphere, pretty_coefs, spht, vspht, spht_slow, ispht, vispht,
ispht_slow, L2_*, LInf_*, sph_harmonic_tp, the use_cext switch),
`spherepy/pysphi.py`, `spherepy/ops.py`, `spherepy/file.py`,
`spherepy/sbessel.py`, `spherepy/verify.py`, `spherepy/plot_sphere.py` (what it
hands to matplotlib), the argument checks of `_wrap_fc_to_sc`/`_wrap_sc_to_fc` in `src/csphi_wrap.c`, `src/csphi.c`, `src/kiss_fft.c` (with unbounded
and with 32 bit ints; in exact arithmetic and, in `MKissF`, `MCsphiF` and `MTransF`, in binary64 (compiled without fused multiply-add; `cos`, `sin` of the math library are parameters); the generic, radix-2,3,4,5 butterflies, factor
search, `kiss_fft_next_fast_size`).

Not modelled: Python's text of a single complex number and numpy's text of an array
(parameters of `MPrint`), the empty classes
`ScalarPatternNonUniform`, `TransversePatternNonUniform` and the `*_nonuniform`
stubs, drawing by matplotlib, `setup.py`, the rest of `src/csphi_wrap.c` and `src/numpy.i`,
examples and tests.  Performance is not modelled.

## 6. Findings (each proved in the model)

1. ScalarCoefs operators compare only total sizes: operands of different
   shapes, e.g. (3,0) and (1,1), combine silently (C09).
2. VectorCoefs operators compare the right operand with itself; a size-1
   operand broadcasts (C13).
3. Division by the number 0 returns an exception object instead of raising it,
   producing TypeError/AttributeError, or a pattern holding an exception (C10).
4. `c[n,:] = v` demands 2n+1 entries although `c[n,:]` has 2 min(n,mmax)+1, so
   `c[n,:] = c[n,:]` fails for n > mmax (C04).
5. `window` accepts a length-1 vector (C06); `c[0:k,:]` with negative k (C05).
6. `mag2(ScalarCoefs)` is not squared; `L2_coef(VectorCoefs)` ignores scoef2 (C22).
7. `TransversePatternUniform.single_val`/`is_symmetric` never look at phi (C20);
   vector `ones_patt_uniform` is not antisymmetric (C21); products and adding a
   number break antisymmetry (C19); odd `ncols` is accepted by the constructors (C17).
8. `double_sphere` in floating point doubles pole values whose square
   underflows (C17, C38).
9. `spht(p, None, mmax)` ignores mmax, and `spht(p)` rejects patterns with more
   than 2*nrows-2 columns (C29).
10. `ispht` accepts nrows = nmax+1, where its result is not the expansion (C30).
11. `smallest_prime_factor`, `FindQ`, `kiss_fft_next_fast_size` do not
    terminate for Q <= 0 (C35).
12. `sph_harmonic_tp` is right only for ncols = 50, IndexError above (C49).
13. C extension: `ispht(c,1,ncols)` with nmax = 0 writes outside the array (C32).
14. `"use_cext": "False"` selects the C path (C50).
15. `load_coef` accepts truncated files silently (C40), one extra line raises
    IndexError; infinite imaginary parts and signs of zero do not survive a
    save/load (C37).
16. `sbessely`/`sbesselj` fail for N = 0, 1 (C42, C43); `sbesselj_array` of an
    empty vector raises UnboundLocalError (C45); the cross-product self test
    only measures the error in j_1 (C45).
17. `VectorCoefs(v1,v2,..)` zeroes the caller's arrays; ScalarCoefs aliases its
    argument; `c[:,m]` is a view while `c[n,:]` is a copy; `c.window(c[:,0])` is
    corrupted by aliasing; `vc.scoef1[0,0]=x` breaks the monopole invariant;
    writing to `p.cdata` breaks the symmetry (C47).
18. `verify_vspht`'s L2 figures are 0 although the second component is wrong;
    `verify_fdata` does not check the array's size: with at most nmax rows the
    C code writes outside it (C57).
19. `plot_coefs` labels its abscissa, which is n, `m`; both coefficient plots
    fail on VectorCoefs only by accident (C58).
20. The C extension computes array positions in 32 bit ints: `spht`/`vspht` of a
    pattern with 2*nrows*ncols > 2^31 and `ispht`/`vispht` to a grid with
    (2*nrows-2)*ncols > 2^31 overflow for every mmax >= 1 (e.g. 32769 x 32768
    grid points) although the arguments are accepted and the Python path works
    (C63).  `FindQ` and `kiss_fft_next_fast_size` overflow above 2125764000,
    `kiss_fft` for prime lengths above 2^30 (C63).
21. The C extension accepts only contiguous complex128 arrays and Python ints:
    `ispht(abs(c))`, coefficients in float64/int64/strided/byte-swapped arrays
    and numpy integers as nmax, mmax raise TypeError where the Python
    implementation works (C64).
22. `vispht` of coefficients in int64 arrays, Python implementation: the copy is
    windowed in place, every product is truncated to an integer; coefficients
    0, 1, -1 give the zero pattern (C64).  `c[:,m] = v` and `window` on real
    arrays drop imaginary parts where `c[n,m] = x` raises TypeError (C64).
23. In double precision the first loop of `ynnm` underflows and sticks at
    2^-1074, the second multiplies that up again: from degree 1076 on every
    table of harmonics is too large by a factor >= 2*1.99^(n-1076), both
    implementations, no warning (C65).
24. From degree 2110 on the order 0 tables are infinite and NaN: `spht` returns
    NaN coefficients for every pattern and `ispht` hands NaN to the inverse
    FFT for every coefficient set (C65).
25. For x < 2^-46 the test `|out[0]| >= |j1|` of `sbesselj` compares with the
    difference of two large rounded numbers; when it fails out[1] is that
    difference: `sbesselj(1e-18, N)[1]` is 128 instead of 3.3e-19 (C66).
26. For 0 < x <= 1 `sbessely` overflows by n = 152 and returns NaN from n = 154;
    the Hankel functions multiply by 1j, so their real parts, which are the
    perfectly representable j_n(x), are NaN from n = 152 (C66).

## 7. Testing the theorems against wrong programs

`seeded/LOG.jsonl` has one line per seeded bug: the definition edited, the
edit, the claim it falsifies, the first lemmas/theorems that failed in a
rebuild of the edited copy, the property files that could no longer be built,
and the theorems that were tightened because of it.
