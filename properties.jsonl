{"id": "C01", "title": "Mode storage layout is a bijection", "statement": "For a ScalarCoefs with 0 <= mmax <= nmax, the modes (n,m) with 0<=n<=nmax, |m|<=min(n,mmax) are stored in distinct cells, every cell belongs to a mode, and c.size equals the number of modes.", "quantifier": "all nmax, mmax with 0<=mmax<=nmax and all pairs of modes", "why_tests_cant": "the layout formula is quadratic in nmax and mmax; a test samples a few sizes", "anchors": ["spherepy/spherepy.py:ScalarCoefs.__init__/size/__getitem__", "spherepy/pysphi.py:mindx"]}
{"id": "C02", "title": "c[n,m] behaves as a finite map under any history", "statement": "After any sequence of c[n,m]=v assignments (successful or rejected), c[n,m] returns the value last successfully assigned to (n,m), or the initial value if there was none; nmax and mmax never change.", "quantifier": "all coefficient sets, all finite sequences of item assignments, all modes read afterwards", "why_tests_cant": "unbounded histories; aliasing of two modes would show only for particular sizes", "anchors": ["spherepy/spherepy.py:ScalarCoefs.__setitem__/__getitem__"]}
{"id": "C03", "title": "Index bounds are enforced exactly and rejected writes change nothing", "statement": "c[n,m] (read or write) succeeds exactly when 0<=n<=nmax and |m|<=min(n,mmax); otherwise AttributeError is raised, and a rejected write of any form (element, row, column, malformed index) leaves the object unchanged.", "quantifier": "all integers n,m; all index expressions; all values", "why_tests_cant": "infinitely many out-of-range indices, negative indices wrap in numpy if a guard is off by one", "anchors": ["spherepy/spherepy.py:ScalarCoefs.__setitem__/__getitem__"]}
{"id": "C04", "title": "Row and column slices read and write exactly their modes", "statement": "c[:,m] is the list of c[n,m] for n=|m|..nmax; c[n,:] is the list of c[n,m] for m=-min(n,mmax)..min(n,mmax). Assigning c[:,m]=v requires len(v)=nmax-|m|+1 and sets exactly that column; assigning c[n,:]=v requires len(v)=2n+1 and sets c[n,m] from the leading entries. Consequently c[n,:]=c[n,:] is accepted iff n<=mmax.", "quantifier": "all sizes, all n, m, all value vectors", "why_tests_cant": "slice/mode correspondence has to hold at every size; the n>mmax asymmetry is missed by square tests", "anchors": ["spherepy/spherepy.py:ScalarCoefs.__setitem__/__getitem__"]}
{"id": "C05", "title": "Truncation c[0:k,:] keeps the coefficients", "statement": "For 0<=k<=nmax, c[0:k,:] is a ScalarCoefs with nmax=k, mmax=min(k,mmax) whose [n,m] equals c[n,m] for each of its modes; k>nmax raises AttributeError.", "quantifier": "all sizes, all k, all modes", "why_tests_cant": "copying between two different triangular layouts must agree at every size", "anchors": ["spherepy/spherepy.py:ScalarCoefs.__getitem__"]}
{"id": "C06", "title": "window multiplies mode (n,m) by vec[n]", "statement": "c.window(v) with len(v)=nmax+1 replaces every c[n,m] by c[n,m]*v[n] and changes nothing else. With len(v) not in {1,nmax+1} it raises and leaves c unchanged.", "quantifier": "all sizes, all coefficient values, all windows", "why_tests_cant": "must hold for each m-column offset at every size", "anchors": ["spherepy/spherepy.py:ScalarCoefs.window"]}
{"id": "C07", "title": "angular_power_spectrum and power agree", "statement": "angular_power_spectrum()[n] is the sum over m of |c[n,m]|^2, has nmax+1 entries, and its total is power() (exact arithmetic).", "quantifier": "all coefficient sets", "why_tests_cant": "a reordering of a sum of unbounded size", "anchors": ["spherepy/spherepy.py:ScalarCoefs.angular_power_spectrum/power/_reshape_m_vecs"]}
{"id": "C08", "title": "Coefficient arithmetic is mode-wise", "statement": "For ScalarCoefs a, b with equal (nmax,mmax) and op in + - * /, (a op b)[n,m] = a[n,m] op b[n,m]; for a number x, (a op x)[n,m] = a[n,m] op x (x != 0 for /) and (x op a)[n,m] = x op a[n,m]; nmax and mmax are kept; other operand types raise TypeError.", "quantifier": "all sizes, all values, all modes, all operators", "why_tests_cant": "mode-wise claim over unbounded sizes", "anchors": ["spherepy/spherepy.py:ScalarCoefs._scalar_coef_op_left/_scalar_coef_op_right/__add__..__rtruediv__"]}
{"id": "C09", "title": "Size mismatch detection for ScalarCoefs", "statement": "a op b for ScalarCoefs raises ValueError exactly when a.size != b.size. (Finding: size does not determine (nmax,mmax), so unlike-shaped operands such as (3,0) and (1,1) combine silently.)", "quantifier": "all pairs of coefficient sets", "why_tests_cant": "collisions of a quadratic form are sparse", "anchors": ["spherepy/spherepy.py:ScalarCoefs._scalar_coef_op_left"]}
{"id": "C10", "title": "Division by the number zero", "statement": "Dividing by the number 0 never returns a quotient: for ScalarCoefs it raises TypeError, for VectorCoefs and TransversePatternUniform AttributeError, and for ScalarPatternUniform it returns an object that holds an exception instead of data. (Finding: a ZeroDivisionError is returned, not raised.)", "quantifier": "all objects of the four classes", "why_tests_cant": "needs the error branch for each class and every size", "anchors": ["spherepy/spherepy.py:__div__/__truediv__ of the four classes"]}
{"id": "C11", "title": "VectorCoefs has no monopole through its own interface", "statement": "Every VectorCoefs produced by the constructor, factories, copy, truncation or arithmetic has zero stored at n=0 in both components, and no sequence of vc[n,m]=... assignments changes that; vc[0,m] and vc[0,:] raise AttributeError.", "quantifier": "all sizes and all finite histories of VectorCoefs operations", "why_tests_cant": "invariant over unbounded histories", "anchors": ["spherepy/spherepy.py:VectorCoefs.__init__/__setitem__/__getitem__/copy"]}
{"id": "C12", "title": "vc[n,m] reads and writes the pair of components", "statement": "vc[n,m]=(a,b) sets scoef1[n,m]=a and scoef2[n,m]=b and nothing else, atomically (it raises AttributeError with no change when out of range, n=0 or the value is not a 2-sequence); vc[n,m] returns (scoef1[n,m],scoef2[n,m]); vc[:,m], vc[n,:] and vc[0:k,:] act componentwise.", "quantifier": "all sizes, modes and values", "why_tests_cant": "component swap or partial update shows only for particular inputs", "anchors": ["spherepy/spherepy.py:VectorCoefs.__setitem__/__getitem__"]}
{"id": "C13", "title": "VectorCoefs arithmetic and its size check", "statement": "For VectorCoefs of equal shape the operators act mode-wise on both components for n>=1. For unequal sizes the result is an error unless the right operand has size 1 (Finding: the guard compares the right operand with itself, so numpy broadcasting of a size-1 operand is accepted silently).", "quantifier": "all pairs of VectorCoefs", "why_tests_cant": "needs every pair of sizes", "anchors": ["spherepy/spherepy.py:VectorCoefs._vector_coef_op_left/_vector_coef_op_right"]}
{"id": "C14", "title": "Coefficient factories", "statement": "zeros_coefs/ones_coefs/random_coefs(nmax,mmax) raise ValueError when mmax>nmax, TypeError for an unknown coef_type, and otherwise return an object with that nmax, mmax, with every mode 0 / 1 / a supplied random draw (n=0 modes zero in the vector case).", "quantifier": "all nmax, mmax >= 0, all coef_type", "why_tests_cant": "all sizes", "anchors": ["spherepy/spherepy.py:zeros_coefs/ones_coefs/random_coefs"]}
{"id": "C15", "title": "2-D array representation of coefficients", "statement": "The array used for plotting has nmax+1 rows, 2*mmax+1 columns, holds c[n,m] at [n, m+mmax] for each mode and 0 elsewhere.", "quantifier": "all sizes and cells", "why_tests_cant": "all sizes", "anchors": ["spherepy/spherepy.py:ScalarCoefs._array_2d_repr/_reshape_n_vecs"]}
{"id": "C16", "title": "pretty_coefs prints each mode in its place", "statement": "For nmax>=2 the text cell printed at row n, column m (n<=2, |m|<=n) shows c[n,m] when |m|<=mmax and blanks otherwise; for nmax<2 AttributeError is raised.", "quantifier": "all coefficient sets and cells", "why_tests_cant": "layout depends on mmax", "anchors": ["spherepy/spherepy.py:pretty_coefs"]}
{"id": "C17", "title": "Constructed patterns have double-sphere symmetry", "statement": "For every array with an even number of columns and at least 2 rows, ScalarPatternUniform(data) satisfies f[(R-i)%R, (j+C/2)%C] = f[i,j] (and TransversePatternUniform the same with a minus sign), is_symmetric is True and single_val is 0 (exact arithmetic). The symmetrisation is idempotent.", "quantifier": "all arrays of all sizes, scalar and vector sign", "why_tests_cant": "all sizes and all data", "anchors": ["spherepy/spherepy.py:continue_sphere/double_sphere/ScalarPatternUniform/TransversePatternUniform"]}
{"id": "C18", "title": "Patterns return the data that was put in", "statement": "ScalarPatternUniform(data).array has the shape of data; every row other than the two poles is returned unchanged, and a pole row is returned unchanged if it already agrees with its antipodal shift. nrows, ncols and shape report the shape of data.", "quantifier": "all arrays, all cells", "why_tests_cant": "all sizes and data", "anchors": ["spherepy/spherepy.py:ScalarPatternUniform.array/nrows/ncols/shape"]}
{"id": "C19", "title": "Pattern arithmetic is cell-wise and preserves scalar symmetry", "statement": "For ScalarPatternUniform of equal shape each operator acts cell-wise and preserves symmetry; unequal shapes raise ValueError, other types TypeError. For TransversePatternUniform + and - of two patterns and multiplication/division by a number preserve the antisymmetry. (Finding: products of two transverse patterns and adding a number do not.)", "quantifier": "all patterns of all shapes", "why_tests_cant": "all shapes and data", "anchors": ["spherepy/spherepy.py:ScalarPatternUniform/TransversePatternUniform operators"]}
{"id": "C20", "title": "is_symmetric decides symmetry", "statement": "For ScalarPatternUniform, is_symmetric is True iff every cell t with partner s satisfies |s-t| < 1e-14*|s| or s=t=0; single_val is the largest relative deviation. For TransversePatternUniform it depends on the theta component only (Finding: phi is never examined).", "quantifier": "all patterns", "why_tests_cant": "all data", "anchors": ["spherepy/spherepy.py:ScalarPatternUniform.single_val/is_symmetric", "spherepy/spherepy.py:TransversePatternUniform.single_val/_sv"]}
{"id": "C21", "title": "Pattern factories", "statement": "zeros/ones/random_patt_uniform(nrows,ncols) raise ValueError for odd ncols and TypeError for unknown type; otherwise give an nrows x ncols pattern of zeros/ones/draws. zeros and scalar ones are symmetric. (Finding: the vector ones pattern is not antisymmetric.)", "quantifier": "all nrows>=2, ncols", "why_tests_cant": "all sizes", "anchors": ["spherepy/spherepy.py:zeros_patt_uniform/ones_patt_uniform/random_patt_uniform"]}
{"id": "C22", "title": "Norms and magnitudes", "statement": "mag, mag2, abs, L2_coef, L2_patt, LInf_coef, LInf_patt are the pointwise magnitude / Euclidean / maximum norms of their argument; L2_coef is 0 iff every scalar coefficient is 0. (Findings: mag2 of ScalarCoefs is not squared; L2_coef of VectorCoefs ignores scoef2.)", "quantifier": "all objects", "why_tests_cant": "all data", "anchors": ["spherepy/spherepy.py:abs/mag/mag2/L2_coef/L2_patt/LInf_coef/LInf_patt"]}
{"id": "C23", "title": "Fourier tables are those of the textbook spherical harmonics", "statement": "For all |m|<=n the table ynunm(n,m,n+1) is the Fourier table in theta of the textbook harmonic Y_n^m (normalised associated Legendre function times e^{im phi}, Condon-Shortley phase, Y_n^{-m} = (-1)^m conj Y_n^m): i^m e^{im phi} times the sum over k of y[k] e^{ik theta}, with y[-k]=(-1)^m y[k], equals Y_n^m(theta,phi) at every point of the sphere (exact arithmetic).", "quantifier": "all n, m with |m|<=n, all theta, phi", "why_tests_cant": "an identity between an O(n) recursion and special functions for every n and m", "anchors": ["spherepy/pysphi.py:ynnm/ynunm", "src/csphi.c:ynnm/ynunm"]}
{"id": "C24", "title": "ispht evaluates the harmonic expansion on the grid", "statement": "For nrows>=nmax+2 and even ncols>=2*mmax+2, ispht(c,nrows,ncols) is an nrows x ncols pattern with value sum_{n,m} c[n,m] Y_nm(pi*i/(nrows-1), 2*pi*j/ncols) at [i,j] (exact arithmetic).", "quantifier": "all coefficient sets, all admissible grid sizes, all grid points", "why_tests_cant": "all sizes and coefficients", "anchors": ["spherepy/spherepy.py:ispht", "spherepy/pysphi.py:sc_to_fc/fcvec_m_sc", "src/csphi.c:sc_to_fc/fcvec_m_sc"]}
{"id": "C25", "title": "spht inverts ispht", "statement": "For every coefficient set c, every grid accepted with nrows>=nmax+2, and every nmax',mmax' accepted by spht on that grid, spht(ispht(c,nrows,ncols),nmax',mmax')[n,m] is c[n,m] when (n,m) is a mode of c and 0 otherwise (exact arithmetic).", "quantifier": "all coefficient sets, all grids, all requested sizes", "why_tests_cant": "numerical tests check a few sizes to 1e-13", "anchors": ["spherepy/spherepy.py:spht/ispht", "spherepy/ops.py", "spherepy/pysphi.py:fc_to_sc"]}
{"id": "C26", "title": "vspht inverts vispht", "statement": "For every monopole-free VectorCoefs vc, every accepted grid, and every accepted nmax', mmax', vspht(vispht(vc,nrows,ncols),nmax',mmax')[n,m] is vc[n,m] for modes of vc and (0,0) otherwise (exact arithmetic).", "quantifier": "all vector coefficient sets, grids, requested sizes", "why_tests_cant": "numerical tests check a few sizes", "anchors": ["spherepy/spherepy.py:vspht/vispht", "spherepy/ops.py:L_fc/sinLdot_fc/divsin_fc/dtheta_fc/dphi_fc"]}
{"id": "C27", "title": "Transforms are linear", "statement": "spht, vspht, ispht and vispht commute with + of same-shaped operands and with multiplication by a number (exact arithmetic).", "quantifier": "all operands, all numbers, all accepted sizes", "why_tests_cant": "all data", "anchors": ["spherepy/spherepy.py:spht/ispht/vspht/vispht"]}
{"id": "C28", "title": "Synthesised patterns are symmetric", "statement": "ispht output satisfies the scalar double-sphere symmetry and vispht output the vector antisymmetry, on the whole doubled array, and has the requested shape (exact arithmetic).", "quantifier": "all coefficients and accepted grids", "why_tests_cant": "all sizes", "anchors": ["spherepy/spherepy.py:ispht/vispht"]}
{"id": "C29", "title": "spht and vspht argument checking", "statement": "With nmax given, spht succeeds exactly when mmax<=nmax, nmax<nrows-1, mmax<ncols/2 and ncols even (mmax defaults to nmax) and raises ValueError otherwise. With nmax omitted mmax is overwritten by ncols/2-1 (Finding: a given mmax is ignored and wide patterns are rejected).", "quantifier": "all patterns, all nmax, mmax", "why_tests_cant": "boundary conditions at every size", "anchors": ["spherepy/spherepy.py:spht/vspht"]}
{"id": "C30", "title": "ispht and vispht argument checking", "statement": "vispht succeeds exactly when nrows>=nmax+2, ncols>=2*mmax+2 and ncols even, ValueError otherwise; defaults nmax+2, 2*mmax+2. ispht uses nrows>=nmax+1 (Finding: contradicts its documentation; at nrows=nmax+1 the result is not the expansion).", "quantifier": "all coefficient sets, all nrows, ncols", "why_tests_cant": "boundary at every size", "anchors": ["spherepy/spherepy.py:ispht/vispht"]}
{"id": "C31", "title": "C extension and Python reference compute the same transforms", "statement": "For every admissible input the C routines ynnm, ynunm, fc_to_sc, sc_to_fc return the same values as pysphi's (exact arithmetic), so spht equals spht_slow and ispht equals ispht_slow.", "quantifier": "all sizes and data accepted by the callers", "why_tests_cant": "tests compare at Nmodes=20 and one grid", "anchors": ["src/csphi.c", "spherepy/pysphi.py", "spherepy/spherepy.py:spht_slow/ispht_slow"]}
{"id": "C32", "title": "C extension stays inside its buffers", "statement": "Called from spht/vspht/ispht/vispht with arguments that passed their guards and nrows>=nmax+2, every array access of the C routines is in bounds. (Finding: ispht(c,1,ncols) with nmax=0 writes outside the array.)", "quantifier": "all sizes accepted by the guards, all loop iterations", "why_tests_cant": "memory errors need not be visible in a test", "anchors": ["src/csphi.c:fc_to_sc/sc_to_fc/hkm_fc/bnm_fc/fcvec_m_sc/SData"]}
{"id": "C33", "title": "kiss_fft computes the DFT", "statement": "For every length n>=1 and every input, kiss_fft with the forward (inverse) configuration computes the unnormalised forward (inverse) DFT, whatever the factorisation (exact arithmetic).", "quantifier": "all lengths, all inputs, both directions", "why_tests_cant": "mixed-radix code has five butterflies and infinitely many factorisations", "anchors": ["src/kiss_fft.c:kf_work/kf_bfly2/kf_bfly3/kf_bfly4/kf_bfly5/kf_bfly_generic/kiss_fft"]}
{"id": "C34", "title": "kf_factor terminates, factors n and fits its buffer", "statement": "For every n>=1 factorisation terminates, the product of the radices is n, each stage length is the remaining quotient, and for n<2^31 at most 32 stages are produced (the buffer's capacity).", "quantifier": "all n", "why_tests_cant": "all integers", "anchors": ["src/kiss_fft.c:kf_factor", "src/_kiss_fft_guts.h:MAXFACTORS"]}
{"id": "C35", "title": "Fast-size search terminates with the least smooth size", "statement": "For Q>=1 smallest_prime_factor(Q) (resp. FindQ, kiss_fft_next_fast_size) terminates and returns the least integer >= Q with no prime factor other than 2,3,5,7 (resp. 2,3,5). For Q=0 the loop never terminates.", "quantifier": "all positive Q", "why_tests_cant": "termination and minimality for all integers", "anchors": ["spherepy/pysphi.py:smallest_prime_factor", "src/csphi.c:FindQ", "src/kiss_fft.c:kiss_fft_next_fast_size"]}
{"id": "C36", "title": "The convolution length never aliases", "statement": "For every even row count L, every Nmax and every Q>=L+Nmax, the length-Q circular convolution used by hkm_fc equals the linear convolution with the kernel -i/nu (nu odd) at k=0..Nmax, for data whose -L/2 row is zero; spht and vspht always supply such data (exact arithmetic).", "quantifier": "all L, Nmax, Q, data", "why_tests_cant": "index collision at Q=L+Nmax occurs only for particular sizes", "anchors": ["spherepy/pysphi.py:s_data/hkm_fc", "src/csphi.c:SData/hkm_fc"]}
{"id": "C37", "title": "save_coef / load_coef round trip", "statement": "For every ScalarCoefs of finite doubles, load_coef after save_coef returns the same nmax, mmax and exactly the same coefficient values.", "quantifier": "all sizes, all finite binary64 values", "why_tests_cant": "2^128 values per coefficient; 17-digit round trip is a number-theoretic fact", "anchors": ["spherepy/file.py:save_coef/load_coef"]}
{"id": "C38", "title": "save_patt / load_patt round trip", "statement": "For every symmetric pattern of finite values, load_patt after save_patt returns a pattern with the same array (exact arithmetic symmetrisation), and load_fdata returns the raw array.", "quantifier": "all shapes and values", "why_tests_cant": "all shapes and values", "anchors": ["spherepy/file.py:save_patt/load_patt/load_fdata"]}
{"id": "C39", "title": "17-digit text identifies a double", "statement": "For every finite binary64 x, parsing the text produced by the .16e format and rounding to nearest-even gives x back.", "quantifier": "all finite doubles including subnormals and powers of two", "why_tests_cant": "2^64 values", "anchors": ["spherepy/file.py:save_coef/save_patt"]}
{"id": "C40", "title": "Loading an interrupted save", "statement": "If a save_coef was cut after k complete coefficient lines, load_coef succeeds and returns the first k coefficients followed by zeros (Finding: truncation is not detected); more lines than coefficients raise IndexError.", "quantifier": "all coefficient sets and all cut points", "why_tests_cant": "every crash point", "anchors": ["spherepy/file.py:save_coef/load_coef"]}
{"id": "C41", "title": "load_vcoef reads the two-block format", "statement": "For a file with header nmax,mmax,d, L lines, a line 'break' and L lines, load_vcoef returns the VectorCoefs with those blocks (monopoles zeroed) and d.", "quantifier": "all sizes and values", "why_tests_cant": "all sizes", "anchors": ["spherepy/file.py:load_vcoef"]}
{"id": "C42", "title": "sbessely returns the spherical Bessel functions of the second kind", "statement": "For x != 0 and N>=2 sbessely(x,N) is the list y_0(x)..y_(N-1)(x), where y_0=-cos x/x, y_1=-cos x/x^2-sin x/x, y_(n+1)=(2n+1)/x*y_n-y_(n-1), and y_n solves x^2 f''+2xf'+(x^2-n(n+1))f=0; x=0 raises ZeroDivisionError, N=0 and N=1 raise IndexError (exact arithmetic).", "quantifier": "all x, all N", "why_tests_cant": "all reals and orders", "anchors": ["spherepy/sbessel.py:sbessely"]}
{"id": "C43", "title": "sbesselj returns the spherical Bessel functions of the first kind", "statement": "Whatever sbesselj(x,N) returns has N entries, entry 0 exact and satisfies j[n-1]+j[n+1]=(2n+1)/x*j[n] in the interior; for 0<|x|<=1 the call succeeds and each entry has relative error at most 2e-20; for 0<|x|<=N-1 the error of a successful call is bounded explicitly in terms of j_(N-2), y_n and the 1e-20 stopping tolerance; x=0 or N<2 never succeeds; sbessel_test_cross_product(x,N) returns |x cos x| times the error of j[1] when |j_1|<=|j_0| (exact arithmetic, j_n the power series).", "quantifier": "all x, N, all iteration counts", "why_tests_cant": "all reals and orders", "anchors": ["spherepy/sbessel.py:sbesselj/sbessel_test_cross_product"]}
{"id": "C44", "title": "The sbesselj loop computes convergents of j_nmax/j_(nmax-1)", "statement": "When the while loop stops, w is a convergent of x/(2nmax+1 - x^2/(2nmax+3 - ...)), whose distance to j_nmax/j_(nmax-1) is known exactly; for 0<|x|<=nmax the loop stops within 34*nmax passes without dividing by zero and w is within 1e-20*|x w| of j_nmax/j_(nmax-1) (exact arithmetic).", "quantifier": "all x, nmax, iteration counts", "why_tests_cant": "all iteration counts", "anchors": ["spherepy/sbessel.py:sbesselj"]}
{"id": "C45", "title": "Hankel functions and array versions", "statement": "sbesselh1 = j + i y and sbesselh2 = j - i y entrywise; sbesselj_array/sbessely_array(xs,N) succeed exactly when xs is not empty and every single call does, and then have N rows, one column per x and column k equal to the function at xs[k].", "quantifier": "all x, xs, N", "why_tests_cant": "all sizes", "anchors": ["spherepy/sbessel.py:sbesselh1/sbesselh2/sbesselj_array/sbessely_array"]}
{"id": "C46", "title": "copy and operators isolate storage", "statement": "Objects returned by copy(), truncation, operators and factories share no storage with any other object: no later sequence of in-place operations on other objects changes them, and operators do not modify their operands.", "quantifier": "all histories of operations on any number of objects", "why_tests_cant": "aliasing over unbounded histories", "anchors": ["spherepy/spherepy.py:ScalarCoefs/VectorCoefs copy, operators, window, __setitem__"]}
{"id": "C47", "title": "Constructors alias and VectorCoefs modifies the caller's arrays", "statement": "ScalarCoefs(vec,...) keeps a reference to vec, so writes through either are visible in both; VectorCoefs(v1,v2,...) additionally sets v1[0]=v2[0]=0 in the caller's arrays; c[:,m] is a view.", "quantifier": "all arrays and all later writes", "why_tests_cant": "needs every history of writes", "anchors": ["spherepy/spherepy.py:ScalarCoefs.__init__/__getitem__", "spherepy/spherepy.py:VectorCoefs.__init__"]}
{"id": "C48", "title": "Transforms leave their argument unchanged", "statement": "spht, vspht, ispht, vispht do not modify the pattern or coefficient object they are given, although their helper routines work in place.", "quantifier": "all inputs", "why_tests_cant": "requires tracking every in-place update", "anchors": ["spherepy/spherepy.py:spht/vspht/ispht/vispht", "spherepy/ops.py"]}
{"id": "C49", "title": "sph_harmonic_tp samples Y_nm", "statement": "For ncols=50 sph_harmonic_tp(nrows,50,n,m) is the nrows x 50 table of Y_nm and equals ispht of the unit coefficient; (Finding: for ncols>50 it raises IndexError and for other ncols the phi grid is wrong because linspace is called without a count).", "quantifier": "all n, m, nrows, ncols", "why_tests_cant": "all sizes", "anchors": ["spherepy/spherepy.py:sph_harmonic_tp"]}
{"id": "C50", "title": "The Python/C switch", "statement": "The C path is chosen for every non-empty string value of use_cext in pkg_info.json (Finding: \"False\" also selects C); both choices give the same spht/ispht results in exact arithmetic.", "quantifier": "all strings", "why_tests_cant": "all configuration values", "anchors": ["spherepy/spherepy.py:use_cext", "spherepy/pkg_info.json"]}
{"id": "C51", "title": "Frequency-domain operators are the analytic ones", "statement": "Acting on Fourier tables whose support leaves the outermost rows free: sin_fc multiplies by sin(theta), divsin_fc inverts it, dtheta_fc and dphi_fc differentiate, L_fc and sinLdot_fc compose to n(n+1) sin(theta) on each harmonic.", "quantifier": "all table sizes and data with the stated support", "why_tests_cant": "all sizes", "anchors": ["spherepy/ops.py"]}
{"id": "C52", "title": "Grid refinement consistency", "statement": "Patterns synthesised from the same coefficients on two accepted grids agree at common points of the sphere.", "quantifier": "all coefficients and pairs of grids", "why_tests_cant": "all sizes", "anchors": ["spherepy/spherepy.py:ispht"]}
{"id": "C53", "title": "vispht evaluates the vector harmonic series", "statement": "For a monopole-free VectorCoefs and an accepted grid, off the poles vispht(vc,nrows,ncols) has theta and phi components equal to the series of vc in the vector spherical harmonics built from Y_n^m, dY/dtheta and (1/sin theta) dY/dphi at each grid point (exact arithmetic).", "quantifier": "all coefficient sets, grids and non-polar grid points", "why_tests_cant": "all sizes and data", "anchors": ["spherepy/spherepy.py:vispht", "spherepy/ops.py:L_fc/divsin_fc"]}
{"id": "C54", "title": "spht computes inner products with the spherical harmonics", "statement": "Let F be a function on the sphere that is a trigonometric polynomial of degree at most nrows-2 in theta and less than ncols/2 in phi. If data holds its values on the nrows x ncols grid, then spht(ScalarPatternUniform(data),nmax,mmax) succeeds for every accepted size and each c[n,m] is the integral of F*conj(Y_n^m) over the sphere; the Y_n^m are orthonormal for that integral (exact arithmetic, both settings of the C switch). For an arbitrary pattern the same holds with F replaced by the trigonometric interpolant carrying the data's Fourier coefficients of those degrees.", "quantifier": "all such functions, all patterns, grids, sizes and both backends", "why_tests_cant": "continuum integrals and all band-limited functions", "anchors": ["spherepy/spherepy.py:spht", "spherepy/spherepy.py:ScalarPatternUniform.__init__", "spherepy/pysphi.py:fc_to_sc", "src/csphi.c:fc_to_sc"]}
{"id": "C55", "title": "power is the energy and the transform is the least squares fit", "statement": "c.power() is the integral over the sphere of |series of c|^2; for F as in C54 the coefficients computed by spht minimise the integral of |F - series|^2 among all coefficient sets of the same size, uniquely: any other set f has error energy larger by exactly the sum of |f[n,m]-c[n,m]|^2 (so power never exceeds the energy of F).", "quantifier": "all coefficient sets; all band-limited functions, grids and competing coefficient sets", "why_tests_cant": "quantifies over functions and integrals", "anchors": ["spherepy/spherepy.py:ScalarCoefs.power/power", "spherepy/spherepy.py:spht"]}
{"id": "C56", "title": "spht follows the symmetries of the pattern", "statement": "For every pattern and accepted size, with either backend: conjugating the data gives c'[n,m] = (-1)^m conj(c[n,-m]), so real data give c[n,-m] = (-1)^m conj(c[n,m]) and coefficients with that relation synthesise a real pattern; turning the pattern by s columns multiplies c[n,m] by exp(-2 pi i m s/ncols); reflecting phi gives (-1)^m c[n,-m]; turning it upside down gives (-1)^(n+m) c[n,m]; a constant pattern x has c[0,0] = x sqrt(4 pi) and all other coefficients 0 (exact arithmetic).", "quantifier": "all patterns (any data), shifts, sizes and both backends", "why_tests_cant": "all sizes and all data", "anchors": ["spherepy/spherepy.py:spht", "spherepy/spherepy.py:ispht", "spherepy/spherepy.py:ScalarPatternUniform", "spherepy/pysphi.py:fc_to_sc", "src/csphi.c:fc_to_sc"]}
{"id": "C57", "title": "What the verification routines report", "statement": "For every pattern and coefficient set of matching sizes, verify_spht and verify_ispht return the root-sum-of-squares and the largest absolute value of the difference between stored and computed coefficients (stored and synthesised doubled pattern), absolute and divided by the same figure of the stored data (nan/inf when that is 0); each absolute figure is 0 exactly when the stored data are the transform; a coefficient file against its own synthesis gives 0.  verify_fdata returns the largest deviation from the Fourier coefficients of the expansion, and leaves the array when it has at most nmax rows.  The LInf figure of verify_vspht is 0 exactly when both components agree, but its L2 figures ignore the second component.  Files written by save_coef enter these comparisons with exactly the saved values (exact arithmetic).", "quantifier": "all patterns, coefficient sets, sizes and both backends", "why_tests_cant": "all data: a figure of 0 must mean agreement for every input", "anchors": ["spherepy/verify.py:verify_spht", "spherepy/verify.py:verify_ispht", "spherepy/verify.py:verify_fdata", "spherepy/verify.py:verify_vspht", "spherepy/verify.py:verify_vispht"]}
{"id": "C58", "title": "What the plotting routines draw", "statement": "plot_mag_on_sphere and plot_sphere_mag hand matplotlib a surface whose point (i,j) lies in the direction theta = pi i/(nrows-1), phi = 2 pi j/ncols of grid point (i,j), at distance equal to the magnitude there (|p|, or sqrt(|theta|^2+|phi|^2) for a transverse pattern); the seam is closed, the pole rows lie on the z axis, and eight corners mark the smallest cube around the surface.  Plotting ispht(c) shows |f| of the expansion; simple_plot(n,m) shows |Y_n^m| for every mode of degree <= 48 and raises AttributeError otherwise.  pcolor_coefs gives cell (n,m) the value |c[n,m]| on the unit square around (m,n), 0 where |m|>n, with colour scale 0 to LInf_coef(c); plot_coefs draws for each m the line n -> |c[n,m]| with nothing at n<|m|.  Vector coefficients are rejected; without matplotlib every routine raises ImportError.", "quantifier": "all arrays, patterns, coefficient sets, modes and both backends", "why_tests_cant": "every size and every grid point; the drawing cannot be inspected by a unit test", "anchors": ["spherepy/plot_sphere.py:plot_mag_on_sphere", "spherepy/plot_sphere.py:plot_sphere_mag", "spherepy/plot_sphere.py:simple_plot", "spherepy/plot_sphere.py:pcolor_coefs", "spherepy/plot_sphere.py:plot_coefs", "spherepy/plot_sphere.py:matplotlibensure"]}
{"id": "C59", "title": "vspht computes inner products with the vector spherical harmonics", "statement": "Let (Ft,Fp) be the components of a tangent vector field that are trigonometric polynomials of degree at most nrows-2 in theta and less than ncols/2 in phi. If tdata, pdata hold their values on the nrows x ncols grid, vspht(TransversePatternUniform(tdata,pdata),nmax,mmax) succeeds for every accepted size and for n>=1 its two coefficients at (n,m) are the integrals over the sphere of F . conj(V) for the two vector harmonics V built from Y_n^m; these vector harmonics are orthonormal; for an arbitrary transverse pattern the same holds of the trigonometric polynomials carrying the data's Fourier coefficients (exact arithmetic, both backends).", "quantifier": "all such fields, all patterns, grids, sizes and both backends", "why_tests_cant": "continuum integrals and all band-limited fields", "anchors": ["spherepy/spherepy.py:vspht", "spherepy/spherepy.py:TransversePatternUniform.__init__", "spherepy/ops.py:sinLdot_fc", "spherepy/pysphi.py:fc_to_sc", "src/csphi.c:fc_to_sc"]}
{"id": "C60", "title": "Vector coefficients carry the energy of the field and vspht is the least squares fit", "statement": "For a vector coefficient set vc, vc.scoef1.power() + vc.scoef2.power() is the integral over the sphere of |field of vc|^2; for a field as in C59 the coefficients computed by vspht minimise the integral of |F - vector series|^2 among all coefficient sets of the same size, any other set having error energy larger by exactly the sum over n>=1 of the squared moduli of the coefficient differences.", "quantifier": "all vector coefficient sets; all band-limited fields, grids and competing coefficient sets", "why_tests_cant": "quantifies over fields and integrals", "anchors": ["spherepy/spherepy.py:VectorCoefs", "spherepy/spherepy.py:ScalarCoefs.power", "spherepy/spherepy.py:vspht"]}
{"id": "C61", "title": "Vector coefficients follow the symmetries of the field", "statement": "For TransversePatternUniform patterns on an accepted grid, with either backend: rotating both components by s columns multiplies every coefficient of scoef1 and scoef2 by e^(-2 pi i m s/ncols); conjugating the field gives scoef1'[n,m] = -(-1)^m conj scoef1[n,-m] and scoef2'[n,m] = (-1)^m conj scoef2[n,-m], so real component arrays give c1[n,-m] = -(-1)^m conj c1[n,m] and c2[n,-m] = (-1)^m conj c2[n,m]; reflecting phi (Ft(-phi), -Fp(-phi)) gives -(-1)^m c1[n,-m] and (-1)^m c2[n,-m]; reflecting theta (-Ft(pi-theta), Fp(pi-theta)) gives -(-1)^(n+m) c1 and (-1)^(n+m) c2; replacing (Ft, Fp) by (-i Fp, i Ft) exchanges scoef1 and scoef2.", "quantifier": "all transverse patterns, grids, degrees, orders, rotation amounts, both backends", "why_tests_cant": "quantifies over all sample arrays", "anchors": ["spherepy/spherepy.py:TransversePatternUniform", "spherepy/spherepy.py:vspht"]}
{"id": "C62", "title": "Printed forms identify what they print", "statement": "repr(c) and str(c) of a ScalarCoefs never fail, and two coefficient sets with the same repr (or the same str) have the same nmax, mmax and coefficients, provided the printed form of a number identifies it and has no comma, closing bracket or newline; str(c) has a header line and one line for each n = 0..nmax listing c[n,-k],..,c[n,k] (k = min(n,mmax)) in order; repr of a VectorCoefs shows the sizes only, repr of a pattern the visible array(s) only (theta before phi); the sizes shown as nmax and mmax are those; pretty_coefs(c) prints in the row labelled n the numbers c[n,-n..n] in order, blank when |m| > mmax, and each is centred above the label m when it has at most 13 characters.", "quantifier": "all coefficient sets, patterns and number formatters", "why_tests_cant": "quantifies over all coefficient values and sizes", "anchors": ["spherepy/spherepy.py:ScalarCoefs.__repr__", "spherepy/spherepy.py:ScalarCoefs.__str__", "spherepy/spherepy.py:VectorCoefs.__repr__", "spherepy/spherepy.py:ScalarPatternUniform.__repr__", "spherepy/spherepy.py:TransversePatternUniform.__repr__", "spherepy/spherepy.py:pretty_coefs"]}
{"id": "C63", "title": "The C extension's 32 bit ints suffice up to 2^31 table entries, and not beyond", "statement": "With the C extension selected, spht and vspht of a pattern with nrows x ncols visible points return exactly what the pure Python implementation returns, without any overflow of a C int, whenever 2*nrows*ncols <= 2^31, and overflow a C int whenever 2*nrows*ncols > 2^31 (arguments accepted, mmax >= 1); ispht and vispht likewise with (2*nrows-2)*ncols (nrows >= 3). FindQ(S) and kiss_fft_next_fast_size(n) return the least 5-smooth number not below their argument up to 2125764000 and overflow for every larger int. A kiss_fft transform of length n has no overflow if n <= 2^30 or n is 5-smooth, and has one for every prime n > 2^30. floor(sqrt((double)n)) computed in binary64 is the integer square root for every int n, so kf_factor factors every int n >= 1 correctly.", "quantifier": "all patterns, coefficient sets, truncations, grid sizes, transform lengths and contents of malloc'ed memory", "why_tests_cant": "the boundary lies at arrays of many gigabytes and no finite set of sizes covers the range; signed overflow is undefined behaviour, so a run that happens to work proves nothing", "anchors": ["src/csphi.c:fc_to_sc", "src/csphi.c:sc_to_fc", "src/csphi.c:hkm_fc", "src/csphi.c:fcvec_m_sc", "src/csphi.c:FindQ", "src/csphi.c:SData", "src/kiss_fft.c:kf_factor", "src/kiss_fft.c:kf_bfly_generic", "src/kiss_fft.c:kiss_fft_next_fast_size", "spherepy/spherepy.py:spht", "spherepy/spherepy.py:vspht", "spherepy/spherepy.py:ispht", "spherepy/spherepy.py:vispht"]}
{"id": "C64", "title": "Element types: what is stored, and what the C extension accepts", "statement": "Arithmetic, abs, copy, truncation, item assignment and window keep the values of a ScalarCoefs within the element type of its array (int64, float64, complex128). Starting from contiguous native complex128 arrays, zeros_coefs, ones_coefs, random_coefs or spht, with Python ints as sizes, every expression without abs gives an object ispht accepts with the C extension, and there ispht, vispht and spht return what the Python implementation returns (tables up to 2^31 entries). Any other object (real or strided or byte-swapped array, numpy integer nmax/mmax; for vispht strides are harmless) makes the C path raise TypeError where the Python path returns a pattern; in particular ispht(abs(c)). c[n,m]=x reads back x iff x is a value of the element type, and raises TypeError for a complex x in a real array; c[:,m]=v and window convert silently (real part; integer part). vispht in Python is the synthesis of the stored values for complex128 and float64 arrays; for int64 arrays it is that of sqrt(n(n+1)) trunc(c/sqrt(n(n+1))), so coefficients 0, 1, -1 give the zero pattern.", "quantifier": "all expressions, coefficient sets, layouts, sizes, written values, windows and contents of malloc'ed memory", "why_tests_cant": "ranges over all programs that build a coefficient set and all layouts; the failures appear only with the compiled extension", "anchors": ["src/csphi_wrap.c:_wrap_fc_to_sc", "src/csphi_wrap.c:_wrap_sc_to_fc", "src/csphi_wrap.c:obj_to_array_no_conversion", "src/csphi_wrap.c:SWIG_AsVal_int", "spherepy/spherepy.py:ScalarCoefs", "spherepy/spherepy.py:ispht", "spherepy/spherepy.py:vispht", "spherepy/spherepy.py:spht", "spherepy/spherepy.py:abs"]}
{"id": "C65", "title": "Double precision limits the degree: harmonics are usable to degree 1022, wrong from 1076, NaN from 2110", "statement": "In IEEE double precision (round to nearest) the table of Fourier coefficients of Y_n^m that spht and ispht use is the same, bit for bit, in the Python and in the C implementation (degrees below 2^25). Its entry n, from which the rest is computed, is within a relative error (6n - 3|m| + 4) 2^-53 of the coefficient of the textbook harmonic for every n <= 1022 and every order. For every n from 1076 to 2^30 and every order it is too large by a factor of at least 2*1.99^(n-1076), or infinite. For order 0 and n >= 2110 it is infinite and the table contains NaN; hence spht with nmax >= 2110 returns NaN in every coefficient (n,0), n >= 2110, for every pattern, and ispht of every coefficient set with nmax >= 2111 fills the order 0 column of the Fourier array with NaN. No argument check prevents this.", "quantifier": "all degrees, orders, patterns, coefficient sets, orders of summation, results of the FFTs and contents of the C work arrays", "why_tests_cant": "ranges over all degrees up to 2^25 and all data; the accuracy bound compares with exact real numbers", "anchors": ["spherepy/pysphi.py:ynnm", "spherepy/pysphi.py:ynunm", "spherepy/pysphi.py:bnm_vec_fc", "spherepy/pysphi.py:fcvec_m_sc", "src/csphi.c:ynnm", "src/csphi.c:ynunm", "src/csphi.c:bnm_fc", "src/csphi.c:fcvec_m_sc", "spherepy/spherepy.py:spht", "spherepy/spherepy.py:ispht"]}
{"id": "C66", "title": "Spherical Bessel functions in double precision: accurate for 2^-46 <= x <= 1, garbage possible below, NaN from order 152", "statement": "In IEEE double precision, with sin, cos and x**2 correct to one unit in the last place: for 2^-46 <= x <= 1 and 2 <= N <= 2^23, sbesselj(x,N) returns N finite numbers, entry n within a relative error (11n+60) 2^-53 of j_n(x) plus 2^-1074 where it underflows, after at most 20 passes of its loop; for 2^-400 <= x < 2^-46 the same unless the test |out[0]| >= |j1| fails, and then |out[1]| >= 0.83 while 0 < j_1(x) <= 0.4 x; with the best possible sin, cos and square sbesselj(1e-18,N)[1] = 128. For every double x (x^2 < 2^938) and N >= 2 the loop ends after at most 2^30 sqrt(x^2+1) - N + 4 passes and the only exceptions are ZeroDivisionError and OverflowError, for Python floats. For 2^-400 <= x <= 1 entry n of sbessely(x,N) is within (7n+4) 2^-53 relative error of y_n(x) while |y_n(x)| <= 2^1000; for every double 0 < x <= 1 its entries are -inf or NaN from n = 152 and all NaN from n = 154. sbesselh1 and sbesselh2 have exactly the values of sbesselj and +/- sbessely as parts where the latter is finite; where it is infinite the real part is NaN, so for 0 < x <= 1 the real parts are NaN from n = 152 and everything from n = 154.", "quantifier": "all doubles x in the stated ranges, all N, all library functions with the stated accuracy, Python floats and numpy scalars", "why_tests_cant": "accuracy against real numbers for every double and every order; NaN and garbage appear at inputs a test would not pick", "anchors": ["spherepy/sbessel.py:sbesselj", "spherepy/sbessel.py:sbessely", "spherepy/sbessel.py:sbesselh1", "spherepy/sbessel.py:sbesselh2"]}
{"id": "C67", "title": "The whole harmonic table is accurate in double precision up to degree 1022", "statement": "In IEEE double precision, for every degree n <= 1022 and every order |m| <= n, each of the entries 0..n of the table of Fourier coefficients of Y_n^m that spht and ispht use is finite and within the absolute error 16 (n+1)^3 (1+sqrt((2n+1)/(4 pi))) 2^-53 of the coefficient of the textbook harmonic (below 3e-5 for n <= 1022, below 2e-8 for n <= 100); entries with n-k odd, which vanish, are exactly zero, and so are all entries beyond n. The exact coefficients are bounded by sqrt((2n+1)/(4 pi)). Both the Python and the C implementation.", "quantifier": "all degrees up to 1022, all orders, table lengths and contents of the C work array", "why_tests_cant": "a three term recurrence run over up to 511 steps from a value as small as 2^-1022: stability must hold for every degree and order, against exact real numbers", "anchors": ["spherepy/pysphi.py:ynunm", "spherepy/pysphi.py:ynnm", "src/csphi.c:ynunm", "src/csphi.c:ynnm"]}
{"id": "C68", "title": "Size and stability of a synthesised pattern", "statement": "Every value of ispht(c) has modulus at most (nmax+1)/sqrt(4 pi) times L2_coef(c), and the patterns of two coefficient sets of the same size differ, at every grid point, by at most the same constant times L2_coef of their difference. The constant cannot be improved: for every nmax there is a coefficient set for which the values at the pole attain it. Both backends, exact arithmetic.", "quantifier": "all valid coefficient sets, all grids that hold them, both backends", "why_tests_cant": "a bound over a whole space of coefficient sets and over all grid points, with a sharp constant", "anchors": ["spherepy/spherepy.py:ispht", "spherepy/spherepy.py:L2_coef", "spherepy/pysphi.py:fcvec_m_sc", "src/csphi.c:fcvec_m_sc"]}
{"id": "C69", "title": "Analysis in doubles: every coefficient is as accurate as the data it is summed from", "statement": "For bandlimits up to 1022, if the data the FFTs hand to the summation are finite doubles bounded by B <= 2^1000 then both backends return finite coefficients, each part of each coefficient within (n+1)(1+sqrt((2n+1)/4pi))(B(48(n+1)^3/2^53 + 12 ew) + 16/2^1074) of the exact sum over the textbook harmonic's Fourier coefficients, where ew bounds the error of the powers of 1j (0 in C); and if the data are within delta of those exact arithmetic gives, each coefficient is within that plus (2n+1) sqrt((2n+1)/4pi) delta of the one exact arithmetic gives. Below 1e-6 for data of size 1 up to degree 50.", "quantifier": "all bandlimits up to 1022, all data of doubles bounded by 2^1000, all summation orders, all contents of C work arrays", "why_tests_cant": "A test compares a few coefficients of a few patterns with a tolerance someone guessed; it cannot bound the error for every pattern, order of summation and degree.", "anchors": ["spherepy/pysphi.py:bnm_vec_fc", "spherepy/pysphi.py:fc_to_sc", "src/csphi.c:bnm_fc", "src/csphi.c:fc_to_sc", "src/csphi.c:ynunm"]}
{"id": "C70", "title": "Synthesis in doubles: every Fourier entry is as accurate as its coefficients", "statement": "For bandlimits up to 1022 and coefficients that are finite doubles bounded by B <= 2^1000, every entry of every column both backends hand to the inverse FFT is finite and within the same bound (with n = nmax) of the exact sum over degrees, mirrored rows included; C leaves the other columns alone.", "quantifier": "all bandlimits up to 1022, all orders, all coefficient sets of doubles bounded by 2^1000, all numbers of rows above the bandlimit", "why_tests_cant": "A test compares single columns with a guessed tolerance and cannot bound the error for every coefficient set.", "anchors": ["spherepy/pysphi.py:fcvec_m_sc", "src/csphi.c:fcvec_m_sc", "src/csphi.c:ynunm"]}
{"id": "C71", "title": "The sum-rule self test of the spherical Bessel functions measures what it claims", "statement": "sum over n >= 0 of (2n+1) j_n(z)^2 is 1 for every z <> 0, and the sum over n < N lies between 1 - R and 1 with R = 2N z^(2N) e^(z^2) / ((2N-1)!! (2N+1)!!). sbesselj_sum(z,N) fails exactly when sbesselj(z,N) fails; otherwise the sum it forms is positive and it returns |sum-1|/sum + spacing(1). If sbesselj's values have relative error at most d <= 1/4 and R <= 1/2 it returns at most spacing(1) + 8d + 4R; for 0 < |z| <= 1 and N >= 2 it always returns at most spacing(1) + 2e-19 + 4R.", "quantifier": "all arguments z and all N", "why_tests_cant": "an identity between infinitely many functions at every real argument, with a remainder for every N", "anchors": ["spherepy/sbessel.py:sbesselj_sum", "spherepy/sbessel.py:sbesselj"]}
{"id": "C72", "title": "kiss_fft in doubles: every output is close to the exact transform of the input doubles", "statement": "For every length n <= 2^20, both directions, distinct buffers with any input stride or in place: if the math library's cos and sin are within delta <= 2^-44 and the inputs are finite doubles of modulus at most B, 2^-900 <= B <= 2^900, then kiss_fft returns, both parts of every output are finite, and every output is within 2(32+P)(log2 n + 1)(2 delta + 40/2^53) n B of the exact DFT, P >= 4 bounding the prime factors of n (74 (log2 n + 1)(...) for fast sizes; 4e-12 of the largest possible output for n = 360); forward then inverse gives n times the data up to 3n times that error.", "quantifier": "all lengths up to 2^20, all data of doubles bounded by 2^900, both directions, all scratch memory contents, all math libraries of the stated accuracy", "why_tests_cant": "A test transforms a few vectors of a few lengths and compares them with a guessed tolerance; the bound must hold for every vector, every factorisation of n and every correct math library.", "anchors": ["src/kiss_fft.c:kf_work", "src/kiss_fft.c:kf_bfly2", "src/kiss_fft.c:kf_bfly3", "src/kiss_fft.c:kf_bfly4", "src/kiss_fft.c:kf_bfly5", "src/kiss_fft.c:kf_bfly_generic", "src/kiss_fft.c:kiss_fft_alloc", "src/kiss_fft.c:kiss_fft"]}
{"id": "C73", "title": "The C backend's spht in doubles is close to exact arithmetic", "statement": "Let fdata hold finite doubles in the columns of orders |m| <= mmax (other columns may hold anything), each of total modulus at most F, 2^-800 <= F <= 2^880, with a zero half row, rows + nmax <= 2^19, nmax <= 1022. For every content of the memory malloc returns and every math library whose cos and sin are within delta <= 2^-44, the C fc_to_sc (SData, both FFTs of every order, the product and the scaling, the sums) executed in binary64 runs through without touching memory outside its buffers, and both parts of every coefficient it stores are finite and within E1 + E2 of those the Python code computes from the same data in exact arithmetic, where E1 is the bound of C69 for data of size 26 lambda F, E2 = (2n+1) sqrt((2n+1)/4pi) 22570 lambda^2 (2 delta + 40/2^53) F and lambda = log2(rows + nmax) + 2.", "quantifier": "all numbers of rows and columns, all bandlimits and orders, all Fourier data of doubles of the stated size, all scratch memory contents, all math libraries of the stated accuracy", "why_tests_cant": "A test compares two backends on a few patterns with a guessed tolerance; the bound must hold for every Fourier array, every FFT length the padding can pick and every memory content.", "anchors": ["src/csphi.c:fc_to_sc", "src/csphi.c:hkm_fc", "src/csphi.c:SData", "src/csphi.c:bnm_fc", "src/kiss_fft.c:kiss_fft", "spherepy/pysphi.py:fc_to_sc"]}
{"id": "C74", "title": "ispht with the C backend in doubles is close to the series", "statement": "Let sc hold finite doubles for 0 <= mmax <= nmax <= 1022, both parts at most B in absolute value (2^-700 <= B <= 2^800), nmax + 2 <= nrows <= 2^29, 2 mmax + 2 <= ncols <= 2^30 and ncols even, and let np.fft.ifft2 return, for arrays of doubles with moduli summing to at most F, finite doubles within eps F/(rows cols) of the exact inverse transform (eps <= 1/2). Whatever is in the memory malloc returns, ispht with use_cext executed in binary64 runs through without touching memory outside its buffers, returns an array of 2 nrows - 2 rows and ncols columns, and every entry of it, in the visible half or not, is a pair of finite doubles within (2 nmax + 1)(2 mmax + 1) (2 t + (eps + 40/2^53) (2 (nmax + 1) sqrt((2 nmax + 1)/4pi) B + 2 t)), t the bound of C70, of the value the spherical harmonic series with these coefficients has at that point.", "quantifier": "all bandlimits and orders, all grid sizes, all coefficient vectors of doubles of the stated size, all scratch memory contents, all inverse transforms of the stated accuracy", "why_tests_cant": "A test evaluates a few coefficient sets on a few grids and picks its tolerance by trial; the bound must hold at every point of every grid for every coefficient vector.", "anchors": ["spherepy/spherepy.py:ispht", "src/csphi.c:sc_to_fc", "src/csphi.c:fcvec_m_sc"]}
{"id": "C75", "title": "spht with the C backend in doubles is close to the exact transform", "statement": "Let d be a double sphere of 2 nrows - 2 rows and ncols columns of finite doubles of modulus at most D (2^-700 <= D <= 2^800), ncols even, let spht be asked (by arguments or by its defaults) for 0 <= mmax <= nmax <= min(nrows - 2, 1022) with 2 mmax < ncols <= 2^30 and 2 nrows + nmax <= 2^19, let np.fft.fft2 return, for arrays with moduli summing to at most F, finite doubles within eps F of the exact transform (eps <= 1/4), and the C library's cos and sin be within delta <= 2^-44 on [-7,7]. Whatever is in the memory malloc returns, spht with use_cext executed in binary64 runs through without touching memory outside its buffers and every coefficient (n, m) it returns is a pair of finite doubles within the stated tolerance of the coefficient the exact spht returns for any exact double sphere within e of d (in particular, with e = 0, of the one for the same data): the tolerance of C73 for data of total modulus 4 nrows D per column, plus (2n + 1) sqrt((2n + 1)/4pi) 26 bits(2 nrows + nmax) ((eps + 30/2^53) D + e).", "quantifier": "all grid sizes, sizes and defaults, all double spheres of doubles of the stated size, all exact data, all scratch memory contents, all transforms and libraries of the stated accuracy", "why_tests_cant": "A test compares a few random patterns with a loose tolerance; the bound must hold for every pattern, size and coefficient, and accounts for every rounding of the way from the FFT to the coefficients.", "anchors": ["spherepy/spherepy.py:spht", "spherepy/ops.py:fix_even_row_data_fc", "spherepy/ops.py:pad_rows_fdata", "spherepy/ops.py:sin_fc", "src/csphi.c:fc_to_sc"]}
{"id": "C76", "title": "evaluating and transforming back in doubles returns the coefficients", "statement": "Under the assumptions of C74 and C75, for coefficients of parts at most B (2^-690 <= B <= 2^700): ispht with the C backend on nrows >= nmax + 2 visible rows and ncols >= 2 mmax + 2 columns, followed by spht with the C backend for the same nmax and mmax on the array that ispht returned, both executed in binary64, runs through, and every coefficient comes back as a pair of finite doubles within the tolerance of C75 of the one that was put in, where e is the tolerance of C74 and D is any bound for the samples (in particular (2 mmax + 1)(nmax + 1) 2 B sqrt((2 nmax + 1)/4pi) plus the tolerance of C74).", "quantifier": "all bandlimits, orders and grids, all coefficient vectors of doubles of the stated size, all scratch memory contents, all transforms and libraries of the stated accuracy", "why_tests_cant": "The project's own round-trip test draws a few random coefficient sets and compares to a fixed number of digits; that every coefficient of every vector returns within an explicit bound needs the error analysis of both directions.", "anchors": ["spherepy/spherepy.py:spht", "spherepy/spherepy.py:ispht", "src/csphi.c:fc_to_sc", "src/csphi.c:sc_to_fc"]}
{"id": "C77", "title": "ispht with the Python backend in doubles is close to the series, and the two backends agree", "statement": "Under the assumptions of C74 on the coefficients, the sizes and np.fft.ifft2, and if the powers 1j ** m Python computes are within ew <= 2^-40 for |m| <= mmax: ispht without use_cext executed in binary64 returns an array of 2 nrows - 2 rows and ncols columns whose entries are pairs of finite doubles within the bound of C74, with t the bound of C70 for powers with error ew, of the value the spherical harmonic series has at that point. On the same coefficients the arrays the two backends return have the same shape and their entries differ by at most the sum of the two bounds, whatever is in the memory malloc returns.", "quantifier": "all bandlimits and orders, all grid sizes, all coefficient vectors of doubles of the stated size, all scratch memory contents, all inverse transforms and powers of the stated accuracy", "why_tests_cant": "The project's tests compare the backends on a few random coefficient sets with a tolerance picked by trial; the bound must hold at every point of every grid for every coefficient vector.", "anchors": ["spherepy/spherepy.py:ispht", "spherepy/pysphi.py:sc_to_fc", "spherepy/pysphi.py:fcvec_m_sc", "src/csphi.c:sc_to_fc"]}
{"id": "C78", "title": "The Python backend's spht in doubles is close to exact arithmetic", "statement": "Let fdata hold finite doubles in the columns of orders |m| <= mmax, each of total modulus at most F, 2^-800 <= F <= 2^860, with a zero half row, rows + nmax <= 2^19, nmax <= 1022, and let np.fft.fft and np.fft.ifft return, for arrays with moduli summing to at most F', finite doubles within eps F' of the exact transform (for ifft eps F' / length), eps <= 2^-30, the powers 1j ** m be within ew <= 1/64 and np.sum add in any order. Then pysphi's fc_to_sc (s_data, the transforms of every order at the padded length, the product, the factor 4 pi, the sums) executed in binary64 succeeds, and both parts of every coefficient are finite and within E1 + E2 of those the same code computes in exact arithmetic, where E1 is the bound of C69 for data of size 26 lambda F, E2 = (2n+1) sqrt((2n+1)/4pi) 90 lambda (eps + 40/2^53) F and lambda = log2(rows + nmax) + 2.", "quantifier": "all numbers of rows and columns, all bandlimits and orders, all Fourier data of doubles of the stated size, all transforms, powers and summation orders of the stated accuracy", "why_tests_cant": "The tests try a handful of random patterns; the error of the padded convolution depends on the padded length, the order and every entry of the column.", "anchors": ["spherepy/pysphi.py:fc_to_sc", "spherepy/pysphi.py:bnm_vec_fc", "spherepy/pysphi.py:hkm_fc", "spherepy/pysphi.py:s_data", "spherepy/pysphi.py:smallest_prime_factor"]}
{"id": "C79", "title": "spht with the Python backend in doubles is close to the exact transform, and the two backends agree", "statement": "Under the assumptions of C75 on the double sphere d, the sizes and D, with all np.fft routines accurate to eps <= 2^-30 and the powers and sums of C78: spht without use_cext executed in binary64 succeeds and every coefficient it returns is a pair of finite doubles within the stated tolerance of the one the exact spht returns for any exact double sphere within e of d. On the same double sphere the two backends return coefficient sets of the same sizes that differ in each part by at most the sum of the two tolerances, whatever is in the memory malloc returns.", "quantifier": "all grid sizes, sizes and defaults, all double spheres of doubles of the stated size, all scratch memory contents, all transforms, powers, math libraries and summation orders of the stated accuracy", "why_tests_cant": "The project compares its backends on random inputs with a picked tolerance; users switch backends and rely on agreement for every input.", "anchors": ["spherepy/spherepy.py:spht", "spherepy/pysphi.py:fc_to_sc", "src/csphi.c:fc_to_sc", "spherepy/ops.py:sin_fc"]}
{"id": "C80", "title": "evaluating and transforming back in doubles with the Python backend returns the coefficients", "statement": "Under the assumptions of C77 and C79, for coefficients of parts at most B (2^-690 <= B <= 2^700): ispht without use_cext on nrows >= nmax + 2 visible rows and ncols >= 2 mmax + 2 columns, followed by spht without use_cext for the same nmax and mmax on the array ispht returned, both executed in binary64, succeeds, and every coefficient comes back as a pair of finite doubles within the tolerance of C79 of the one that was put in, where e is the tolerance of C77 and D is any bound for the samples (in particular (2 mmax + 1)(nmax + 1) 2 B sqrt((2 nmax + 1)/4pi) plus the tolerance of C77).", "quantifier": "all bandlimits, orders and grids, all coefficient vectors of doubles of the stated size, all transforms, powers and summation orders of the stated accuracy", "why_tests_cant": "The round-trip test draws a few random coefficient sets and compares to a fixed number of digits.", "anchors": ["spherepy/spherepy.py:spht", "spherepy/spherepy.py:ispht", "spherepy/pysphi.py:fc_to_sc", "spherepy/pysphi.py:sc_to_fc"]}
{"id": "C81", "title": "The powers of i the Python backend uses are exact up to order 100 and accurate beyond", "statement": "The values 1j ** m that CPython computes (complex multiplication by squaring for |m| <= 100 and the complex division 1/x for negative m; otherwise cos and sin of the rounded product of atan2(1,0) and m), executed in binary64, raise no error, and are exactly i^m for |m| <= 100 whatever the C library does; for |m| <= 1022, if atan2(1,0) is within 2^-52 of pi/2 and cos and sin are within delta of the true functions on [-1700, 1700], both parts are finite doubles within delta + 2^-41 of those of i^m. So the assumption of C77-C80 on the powers holds of the interpreter, and the round trip of C80 holds with its powers: with ew = 0 for mmax <= 100 and no assumption on the C library, and with ew = delta + 2^-41 (delta <= 2^-41) for all mmax <= 1022.", "quantifier": "all orders up to 1022, all values of atan2(1,0) and all cos and sin functions of the stated accuracy; for the round trip as C80", "why_tests_cant": "A test can evaluate some powers on one machine; the claim is for every order and every C library of the stated accuracy, and the consequence is about every coefficient vector.", "anchors": ["spherepy/pysphi.py:bnm_vec_fc", "spherepy/pysphi.py:fcvec_m_sc", "spherepy/spherepy.py:spht", "spherepy/spherepy.py:ispht"]}
{"id": "C82", "title": "The operators of ops.py are accurate in double precision", "statement": "On every nrows x ncols array (both even, nrows >= 4, ncols >= 2, at most 2^21) of finite doubles with real and imaginary parts at most F (2^-700 <= F <= 2^800), the functions of ops.py executed in binary64 raise no error, produce finite doubles only, and each entry is near that of the operator applied exactly to the same values: dtheta_fc within (nrows/2+1) F / 2^53; dphi_fc within (ncols/2+1) F / 2^53; divsin_fc within 2 t^2 F / 2^53 in the row whose frequency is t below nrows/2; the two components of L_fc within 3 t^2 (ncols/2+1) F / 2^53 and (nrows/2+1) F / 2^53; sinLdot_fc within (ncols + 4 nrows + 6) F / 2^53. If rows nrows/2 and +-(nrows/2-1) are zero, then sin_fc followed by divsin_fc returns the array, within 8 t^2 F / 2^53.", "quantifier": "all even sizes up to 2^21, all arrays of finite doubles of the stated size, every entry of every result", "why_tests_cant": "The division by sin theta is a recursion over the rows that accumulates rounding errors; a test measures the error for some arrays, the claim bounds it for all of them.", "anchors": ["spherepy/ops.py:sin_fc", "spherepy/ops.py:divsin_fc", "spherepy/ops.py:dtheta_fc", "spherepy/ops.py:dphi_fc", "spherepy/ops.py:sinLdot_fc", "spherepy/ops.py:L_fc"]}
{"id": "C83", "title": "The normalisation of the vector transforms is accurate in double precision", "statement": "For nmax < 2^26 the vector nvec that vspht and vispht build (1.0 / np.sqrt(n * (n + 1.0)), zero at n = 0), computed in binary64, has real parts within relative 3 / 2^53 of 1 / sqrt(n (n + 1)) and zero imaginary parts. Applied with window() to any coefficients object whose coefficients are finite doubles (of any size), it raises nothing and returns an object of the same sizes with finite doubles only; real and imaginary part of coefficient (n, m), n >= 1, are within 5 / 2^53 relative plus 2^-1074 of those of the exact quotient by sqrt(n (n + 1)), and the coefficient with n = 0 is zero.", "quantifier": "all sizes nmax < 2^26, all coefficient objects of finite doubles, including subnormal and the largest ones", "why_tests_cant": "A test checks some coefficients; the claim is for every coefficient of every object, with no overflow and no loss beyond underflow.", "anchors": ["spherepy/spherepy.py:vspht", "spherepy/spherepy.py:vispht", "spherepy/spherepy.py:ScalarCoefs.window"]}
{"id": "C84", "title": "vispht evaluates the vector harmonic series in double precision, with both backends", "statement": "If np.fft.ifft2 is accurate to eps <= 1/2 (and, with the Python backend, the interpreter's powers 1j ** m to ew <= 2^-40), vispht of a vector coefficients object of size nmax <= 1022, mmax with finite coefficients of size at most B (2^-700 <= B <= 2^700), for nrows >= max(nmax + 2, 3) and even ncols >= 2 mmax + 2 (both at most 2^20), executed in binary64 raises nothing and returns two arrays of shape (2 nrows - 2, ncols); off the poles every entry of the visible rows is a pair of finite doubles within an explicit tolerance (vispht_tol: the C70 error of the Fourier sums and the C83 error of the normalisation, propagated through L_fc, the combination and the inverse transform) of the vector harmonic series the coefficients denote at that grid point, the monopoles discarded. The results of the two backends on one object differ, in every entry including the poles and hidden rows, by at most the sum of their tolerances. Without nrows and ncols the grid is nmax + 2 by 2 mmax + 2; smaller grids and odd ncols raise ValueError.", "quantifier": "all sizes and coefficients in the stated ranges, any contents of freshly malloc'ed memory in the C backend, any inverse transform meeting the accuracy hypothesis, every entry", "why_tests_cant": "Tests compare both backends on a few objects; the claim bounds the rounding error of every sample for all of them.", "anchors": ["spherepy/spherepy.py:vispht", "spherepy/ops.py:L_fc", "spherepy/csphi.py:sc_to_fc", "spherepy/pysphi.py:sc_to_fc"]}
