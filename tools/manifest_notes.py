STATUS={}
NOTES={
"C17":"exact arithmetic; an odd number of columns is accepted and gives no symmetry (C17_odd_columns_refuted)",
"C18":"exact arithmetic; in binary64 tiny pole values come back doubled (C18_float_pole_refuted)",
"C19":"products of transverse patterns / adding a number break antisymmetry (refuted theorems)",
"C20":"the vector test ignores phi (C20_vector_decides_refuted)",
"C21":"ones of vector type is never antisymmetric (C21_ones_vector_refuted)",
"C22":"exact arithmetic; mag2 of ScalarCoefs and L2_coef of VectorCoefs are refuted as norms",
"C07":"power totals in exact arithmetic",
"C09":"the stronger shape check is refuted (C09_shape_check_refuted)",
"C13":"the natural size check is refuted (C13_size_check_refuted)",
}
TR="exact (real/complex) arithmetic, numpy fft trusted to be the DFT; 0<=mmax<=nmax; proved for the pure-Python backend"
for k in ("C23","C24","C25","C26","C27","C28","C29","C30","C52","C53"): NOTES[k]=TR
NOTES["C29"]+="; the natural default behaviour is refuted (a given mmax is ignored, wide patterns rejected)"
NOTES["C30"]+="; nrows=nmax+1 gives a wrong result (refuted)"
NOTES["C35"]="pure-Python search, kiss_fft_next_fast_size / FindQ in P_Kiss; non-positive sizes diverge (C35_nonpositive_diverges)"
NOTES["C36"]="exact arithmetic; the aliasing-free length is proved admissible"
NOTES["C49"]="exact arithmetic; only right for 50 columns (C49_other_columns_refuted)"
NOTES["C51"]="exact arithmetic"
NOTES["C33"]="exact arithmetic; C int without overflow, n < 2^31"
NOTES["C34"]="floor(sqrt((double)n)) modelled by the integer square root (exact for int n); C int without overflow"
NOTES["C31"]="exact arithmetic; C int without overflow (3*rows <= 2^31); 0<=mmax; the degenerate single-row nmax=0 inverse is excluded (C32)"
NOTES["C32"]="C int without overflow; ispht(c,1,ncols) with nmax=0 leaves the array (C32_ispht_single_row_out_of_bounds)"
NOTES["C50"]="\"False\" selects the C path (C50_False_string_selects_C_refuted)"

NOTES["C37"]="finite doubles; the sign of a zero component may change (C37_negative_zero_refuted); infinities do not survive (C37_infinite_refuted)"
NOTES["C38"]="binary64 values; pole values whose square underflows come back doubled (C38_tiny_pole_refuted)"
NOTES["C39"]="Python's float/format text conversion modelled by exact decimal rounding (correctly rounded), as CPython documents"
NOTES["C40"]="a crash leaves a prefix of the file; a truncated file is silently accepted with zeros, a number cut in the middle loads as a wrong value (C40_truncated_number_refuted)"
NOTES["C41"]="ASCII text; finite values, sign of a zero component may change"
NOTES["C46"]="exact arithmetic, contiguous arrays; dtypes and strided user views not modelled"
NOTES["C47"]="consequences of sharing shown by witnesses: C47_window_by_own_column_refuted, C47_monopole_through_scoef1_refuted, C47_write_to_cdata_refuted"
NOTES["C48"]="exact arithmetic; pure-Python backend; store model of numpy buffers and contiguous views"
NOTES["C54"]="exact arithmetic; functions that are trigonometric polynomials of degree <= nrows-2 in theta, < ncols/2 in phi; 0<=mmax"
NOTES["C55"]="exact arithmetic; same class of functions as C54"
NOTES["C56"]="exact arithmetic; patterns with an even number of columns and symmetric doubled data (what the constructor and ispht make, C56_constructed_patterns); 0<=mmax"
NOTES["C57"]="exact arithmetic on the loaded values (real value of each double); a relative figure is None where numpy gives nan or inf; C57_L2_blind_refuted shows that verify_vspht's L2 figures do not see the second component"
NOTES["C58"]="the arrays and points handed to matplotlib, in exact arithmetic; matplotlib itself (and its choice of mesh shading) is not modelled"
NOTES["C59"]="exact arithmetic; components that are trigonometric polynomials of degree <= nrows-2 in theta, < ncols/2 in phi; 0<=mmax; the poles, where the vector harmonics have no components, do not enter the integral"
NOTES["C60"]="exact arithmetic; same class of fields as C59"
NOTES["C61"]="exact arithmetic; patterns with the stored antisymmetry, which C61_constructed_patterns shows the constructor produces; C61_real_arrays is in terms of the arrays passed to the constructor"
NOTES["C62"]="the text of one number (Python str/format of a complex) and of a numpy array are parameters; everything around them is concrete text. Numbers whose .2 format exceeds 13 characters shift the pretty_coefs columns (C62_picture needs the bound, C62_picture_rows does not)"
NOTES["C63"]="exact arithmetic for the floating point values, 32 bit ints checked; size_t and pointers unbounded; spht/vspht theorems for patterns with an even number 2R-2 of doubled rows and 0<=mmax; the converse (overflow) for mmax>=1"
NOTES["C64"]="numpy's promotion/casting rules and SWIG's argument checks as stated in MDtype.v; int64 without wrap-around; c[n,:]=v into real arrays not modelled; exact arithmetic"
NOTES["C65"]="IEEE binary64 (SpecFloat) for the tables and the sums over them; FFT results arbitrary; the error of the remaining table entries is bounded in C67, that of the sums is not; degrees 1023..1075 are not classified; the last inverse FFT of ispht is not modelled in double precision (the theorem is about its argument)"

NOTES["C66"]="IEEE binary64 (SpecFloat) for every operation of sbessel.py; np.sin, np.cos and x**2 are parameters with stated accuracy (for the concrete failing x: correctly rounded); x a Python float or a numpy float64 scalar, not an int or an array; accuracy for |x| > 1 and for negative x is not treated in double precision (C42-C45 treat it in exact arithmetic)"
NOTES["C67"]="IEEE binary64 (SpecFloat); absolute error; degrees 1023..1075 not treated"
NOTES["C68"]="exact arithmetic; scalar transforms"
NOTES["C69"]="the FFTs that produce the data are not modelled in doubles; their error enters as delta"
NOTES["C70"]="up to the array handed to the inverse FFT; the FFT itself is not modelled in doubles"
NOTES["C71"]="exact arithmetic; np.sort only reorders the summands"
NOTES["C72"]="binary64 arithmetic; cos and sin of the math library are parameters with an accuracy hypothesis, no fused multiply-add"
NOTES["C73"]="binary64 arithmetic without fused multiply-add; the 2-D FFT that produces fdata is numpy's and not modelled in doubles; ints unbounded (C63)"
NOTES["C74"]="np.fft.ifft2 is a parameter with an assumed accuracy; binary64 without fused multiply-add; ints unbounded (C63); nrows = nmax + 1 (accepted by the code, aliased) is not covered"
NOTES["C75"]="np.fft.fft2 and libm's cos and sin are parameters with an assumed accuracy; binary64 without fused multiply-add; ints unbounded (C63); 2 nrows + nmax <= 2^19"
NOTES["C76"]="as C74 and C75; nrows >= nmax + 2 and ncols >= 2 mmax + 2 (the sizes for which the exact round trip is the identity, C25)"
NOTES["C77"]="np.fft.ifft2 and the powers 1j ** m are parameters with an assumed accuracy; binary64; nrows = nmax + 1 (accepted by the code, aliased) is not covered"
NOTES["C78"]="np.fft.fft, np.fft.ifft and the powers 1j ** m are parameters with an assumed accuracy, np.sum adds in any order; binary64; the 2-D FFT that produces fdata is in C79"
NOTES["C79"]="the np.fft routines, the powers 1j ** m and (agreement) libm's cos and sin are parameters with an assumed accuracy; binary64 without fused multiply-add; ints unbounded (C63); 2 nrows + nmax <= 2^19"
NOTES["C80"]="as C77 and C79; nrows >= nmax + 2 and ncols >= 2 mmax + 2 (the sizes for which the exact round trip is the identity, C25)"
NOTES["C81"]="CPython is not in /repo: complexobject.c is modelled as part of the machine the code runs on (c_powu, c_powi, _Py_c_prod, _Py_c_quot, _Py_c_pow; hypot(0,1) = 1 and pow(1,m) = 1 by C99 Annex F); numpy integer exponents, which the code does not use here, are not covered"
NOTES["C82"]="binary64 with numpy's complex operations (no fused multiply-add); even sizes, nrows >= 4; the result is compared with the exact operator on the same values, the vector transforms around it are not rounded here"
NOTES["C83"]="binary64 with correctly rounded sqrt and numpy's textbook complex product (no fused multiply-add)"
NOTES["C84"]="np.fft.ifft2 and the interpreter's powers are parameters with accuracy hypotheses; the tolerance is a worst-case bound (it grows like nrows^2 ncols^2 sqrt(nmax) B / 2^53 times nmax), not a typical error; at the poles the two backends are compared, the series is not evaluated"
