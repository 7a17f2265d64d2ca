{"id": "C01", "title": "slicewise evaluation is independent of the slice length", "statement": "slicewise_eval(func, nmin, nmax, stepsize) returns, for every elementwise func, exactly [func(n) for n = nmin..nmax] (length nmax-nmin+1), whatever positive stepsize is used.", "quantifier": "all functions, all integers nmin <= nmax+1, all stepsizes >= 1", "why_tests_cant": "Tests only use x+1 and stepsize 10; the claim ranges over every function, range and slice length.", "anchors": ["CasimirRio/thermodynamics.py:slicewise_eval"]}
{"id": "C02", "title": "slicewise evaluation covers each index exactly once and validates its inputs", "statement": "For an arbitrary func the calls made by slicewise_eval are consecutive non-empty slices, each at most stepsize long, whose concatenation is nmin..nmax; the result is the concatenation of the returned arrays; a non-positive stepsize and a negative result length raise ValueError, and a returned array of the wrong length (other than 1) raises ValueError.", "quantifier": "all functions returning arrays of arbitrary length, all integers, all stepsizes", "why_tests_cant": "The partition of the range and the error branches must hold for every size; tests sample five ranges.", "anchors": ["CasimirRio/thermodynamics.py:slicewise_eval"]}
{"id": "C03", "title": "free energy is the Matsubara sum at every multiple of the base temperature", "statement": "finiteT.free_energy() returns an array of length round(Tmax/deltaT) whose i-th entry (i=1,2,..) is i*deltaT times the sum of the Matsubara terms f_n over all n <= nmax divisible by i; for i > nmax only the n=0 term remains.", "quantifier": "all Matsubara arrays, all temperatures and grid sizes", "why_tests_cant": "The stride sum must be right for every i and every nmax, tests check one geometry.", "anchors": ["CasimirRio/thermodynamics.py:finiteT.free_energy"]}
{"id": "C04", "title": "force() should sum the force operator, but the code does not (defect)", "statement": "finiteT.force() is documented to return the Casimir force, i.e. Matsubara sums of the force operator. The code violates this: for nmax <= 49 force() never evaluates the force operator and returns exactly what free_energy() with analytic_n0=False returns, for every geometry; for nmax >= 50 it raises as soon as the force operator raises on the second slice.", "quantifier": "all geometries, all nmax", "why_tests_cant": "Needs reasoning about every nmax and slice position; no test calls force().", "anchors": ["CasimirRio/thermodynamics.py:finiteT.force", "CasimirRio/thermodynamics.py:finiteT.F_alle", "CasimirRio/translation.py:translation.__init__"]}
{"id": "C05", "title": "results do not depend on the order of previous calls", "statement": "On one finiteT object, free_energy() and entropy() return the same arrays after any history of free_energy()/entropy() calls; once free_energy() succeeded, force() does not change them either, but a force() call before the first free_energy() changes the free energy (defect).", "quantifier": "all call histories on one object", "why_tests_cant": "Quantifies over all call sequences.", "anchors": ["CasimirRio/thermodynamics.py:finiteT.free_energy", "CasimirRio/thermodynamics.py:finiteT.force", "CasimirRio/thermodynamics.py:finiteT.entropy"]}
{"id": "C06", "title": "entropy is minus the finite-difference temperature derivative of the free energy", "statement": "entropy() has the length of free_energy(), is exact at every grid point when the free energy is affine in T, exact in the interior when quadratic, and raises when fewer than two temperatures are available.", "quantifier": "all free energy tables and grid spacings", "why_tests_cant": "Finite-difference exactness is a for-all-polynomials statement; the only test is marked expectedFailure.", "anchors": ["CasimirRio/thermodynamics.py:finiteT.entropy"]}
{"id": "C07", "title": "automatic number of Matsubara terms is a positive integer and scale invariant", "statement": "With nmax=\"automatic\" the constructor stores an integer >= 1; it depends only on the ratios of lengths (scaling radii and distance by s and the temperature by 1/s leaves it unchanged) and is symmetric in the two spheres; an integer nmax is kept unchanged.", "quantifier": "all radii, distances, temperatures and lmax with separated surfaces", "why_tests_cant": "Ranges over a continuum of geometries.", "anchors": ["CasimirRio/thermodynamics.py:finiteT.__init__"]}
{"id": "C08", "title": "the zeroth Matsubara term enters with weight one half", "statement": "F_alle on [0,k1,..] returns half the zero-frequency value followed by the unweighted values for k1,..; on arrays without a zero every entry is unweighted. A single-entry array [0] is accepted in the analytic mode but raises IndexError when the zero term is not evaluated analytically (defect).", "quantifier": "all Matsubara arrays and geometry results", "why_tests_cant": "Must hold for every array length and both evaluation modes.", "anchors": ["CasimirRio/thermodynamics.py:finiteT.F_alle"]}
{"id": "C09", "title": "the sum over angular momentum projections is a weighted partial sum with a sound stopping rule", "statement": "mSumme returns, for some M <= lmax, the m=0 contribution plus twice the contributions m=1..M, each evaluated exactly once in this order; it stops before lmax only if the last step changed the largest entry by less than precision/10 relatively or the sum is identically zero, and it does not continue past such a step; it raises only if the evaluation of a contribution raises. The zero-frequency sum obeys the same rule with the ratio inverted.", "quantifier": "all term sequences, all lmax, all precisions, including NaN and infinite contributions", "why_tests_cant": "The loop must be right for every sequence of block determinants.", "anchors": ["CasimirRio/geometry.py:SphereSphere.mSumme", "CasimirRio/geometry.py:SphereSphere.mSumme_k0"]}
{"id": "C10", "title": "a leading zero frequency is split off and evaluated separately", "statement": "mSumme on [0, rest] equals the zero-frequency sum followed by mSumme(rest), and [0] alone gives the zero-frequency sum only; an empty array raises IndexError.", "quantifier": "all frequency arrays", "why_tests_cant": "for all lengths.", "anchors": ["CasimirRio/geometry.py:SphereSphere.mSumme"]}
{"id": "C11", "title": "caching of Mie coefficients is transparent for sums over m, but not for isolated requests (defect)", "statement": "The Mie coefficients used for (m, k) are those of l = max(1,m)..lmax whatever was requested before on the same object, provided m <= 1 or the preceding request was for the same k; hence every evaluation made by a sum over m=0,1,.. is history independent. A request with m >= 2 after none or another k uses the coefficients of l = 1..lmax, m-1 too many (defect).", "quantifier": "all sequences of requests on one object", "why_tests_cant": "History dependence needs all call sequences; tests only construct fresh objects and start at m=0.", "anchors": ["CasimirRio/geometry.py:SphereSphere.roundTrip_elements"]}
{"id": "C12", "title": "caching of zero-frequency Mie coefficients is transparent if the first request had m <= 1", "statement": "The zero-frequency coefficients used for m are those of l = max(1,m)..lmax after any history whose first request had m <= 1. If the first request had m0 >= 2, every later request m <= lmax uses the coefficients starting at l = m0+max(1,m)-1 instead (defect).", "quantifier": "all sequences of requests on one object", "why_tests_cant": "History dependence needs all call sequences.", "anchors": ["CasimirRio/geometry.py:SphereSphere.roundTrip_elements_k0"]}
{"id": "C13", "title": "rescaling of the round-trip matrix does not change the physics", "statement": "The matrices produced with dynamic scaling / single_k_scale are similar to the unscaled ones: every trace of a power, the determinant of 1-M and the diagonal are unchanged, for the full TE/TM block matrix.", "quantifier": "all logarithmic scaling arrays and all matrix sizes", "why_tests_cant": "An algebraic invariance over all matrices.", "anchors": ["CasimirRio/geometry.py:single_k_scale", "CasimirRio/geometry.py:dynamic_scaling", "CasimirRio/geometry.py:SphereSphere.blockmatrices"]}
{"id": "C14", "title": "balancing preserves determinant, trace, spectrum and diagonal", "statement": "balance(matrix, conv) returns a matrix diagonally similar to its input by powers of two: same determinant, same characteristic polynomial, same diagonal, same zero pattern; it overwrites its argument with the result.", "quantifier": "all square real matrices of every size, all conv", "why_tests_cant": "Test uses one random matrix; the claim is for all matrices and all numbers of sweeps.", "anchors": ["CasimirRio/matrix_balancing.pyx:balance"]}
{"id": "C15", "title": "balancing terminates and reaches its stopping condition", "statement": "For every finite square matrix and every conv < 1 balance() returns after finitely many sweeps, and in the result no further sweep would change the matrix: every row/column pair either has a (numerically) zero off-diagonal norm or is balanced to within the factor conv.", "quantifier": "all square real matrices, all conv < 1", "why_tests_cant": "Termination is a statement about unbounded loops.", "anchors": ["CasimirRio/matrix_balancing.pyx:balance"]}
{"id": "C16", "title": "balancing never returns when an off-diagonal square overflows (defect)", "statement": "balance() should return (or raise) for every double matrix. It does not: if the square of one off-diagonal element of the first row is infinite (an infinity or a finite number above about 1.3e154), the first row and column contain no NaN and the first column is not negligible, the inner loop never ends, for every conv and size (likewise with rows and columns exchanged). If every index has a NaN in its row or column sum the matrix is returned unchanged.", "quantifier": "all IEEE double matrices", "why_tests_cant": "Non-termination cannot be observed by a test.", "anchors": ["CasimirRio/matrix_balancing.pyx:balance"]}
{"id": "C17", "title": "the log-determinant functions return ln|det(1-M)|, except for 1x1 blocks of opposite sign", "statement": "balanced_slogdet(M)[i] and sln_det_3d(A,B,C,D)[i] equal ln|det(1-M_i)| of the (assembled) matrix (-inf for a singular one), sln_det_blockdiagonal(A,B) equals ln|det(1-A)| + ln|det(1-B)| for all sizes but 1x1; mismatching shapes raise. For 1x1 blocks the sign is not dropped: the value is right for a positive product and NaN for a negative one (defect).", "quantifier": "all stacks of matrices of all sizes with non-vanishing determinant", "why_tests_cant": "For all sizes and entries.", "anchors": ["CasimirRio/geometry.py:balanced_slogdet", "CasimirRio/geometry.py:sln_det_3d", "CasimirRio/geometry.py:sln_det_blockdiagonal"]}
{"id": "C18", "title": "block assembly places the four polarization blocks consistently", "statement": "matrix_append([A,B,C,D]) and supermatrix produce the same array [[A,B],[C,D]] entry by entry for each frequency; matrix_append raises on shape mismatch or a list whose length is not 4.", "quantifier": "all stacks of blocks of all shapes", "why_tests_cant": "for all shapes.", "anchors": ["CasimirRio/geometry.py:matrix_append", "CasimirRio/geometry.py:SphereSphere.supermatrix"]}
{"id": "C19", "title": "the blockwise inverse is the inverse", "statement": "inv_3d_blockmatrix(m)[i] is the two-sided inverse of m[i] whenever the upper left block and its Schur complement are invertible; it raises ValueError for odd or non-square matrices; a singular upper-left block raises even if the matrix is invertible.", "quantifier": "all stacks of matrices of all even sizes", "why_tests_cant": "for all matrices.", "anchors": ["CasimirRio/geometry.py:inv_3d_blockmatrix", "CasimirRio/geometry.py:inv_3d_matrix", "CasimirRio/geometry.py:dot_3d_matrices"]}
{"id": "C20", "title": "trace_dot_3d is the trace of (1-m1)^-1 m2", "statement": "trace_dot_3d(m1,m2)[i] = tr((1-m1[i])^-1 m2[i]); it is linear in m2.", "quantifier": "all stacks of matrices", "why_tests_cant": "for all matrices.", "anchors": ["CasimirRio/geometry.py:trace_dot_3d"]}
{"id": "C21", "title": "the round-trip expansion sums traces of powers; the automatic mode records one order too many (defect)", "statement": "arbitrary_roundtrips(M, order, m) = -sum_{n=1}^{order} tr(M^n)/n for each frequency and records the order used; orders below 1 raise UnboundLocalError. The automatic mode stops only when the last term is at most precision relative to the sum for every frequency, returns for positive precision and bounded non-negative traces, never returns for negative precision, and records one more than the number of terms summed.", "quantifier": "all stacks of matrices, all orders", "why_tests_cant": "for all orders and matrices.", "anchors": ["CasimirRio/geometry.py:SphereSphere.arbitrary_roundtrips"]}
{"id": "C22", "title": "automatic angular momentum cutoffs are valid and well behaved", "statement": "get_lmax returns an integer >= 1, is symmetric in the spheres, invariant under a common rescaling of all lengths, grows when more precision or a larger offset is requested and when the surfaces approach; the automatic lssmax is >= lmax.", "quantifier": "all positive radii, distances of separated spheres, precisions in (0,1)", "why_tests_cant": "Continuum of geometries.", "anchors": ["CasimirRio/geometry.py:get_lmax", "CasimirRio/geometry.py:SphereSphere.__init__"]}
{"id": "C23", "title": "geometry construction validates the evaluation mode and derives its attributes, but not the geometry (defect)", "statement": "The constructor accepts only evaluation \"lndet\" or \"trace\", takes the outer radius of stratified spheres, stores given cutoffs and derives automatic ones, and classifies the configuration as external exactly if L > r1+r2. Overlapping spheres are silently accepted, and CoatedSphereSphere passes lssmax as offset and forceFlag as lssmax to its base class (defects).", "quantifier": "all radii, distances, evaluation strings", "why_tests_cant": "for all inputs.", "anchors": ["CasimirRio/geometry.py:SphereSphere.__init__", "CasimirRio/geometry.py:CoatedSphereSphere.__init__"]}
{"id": "C24", "title": "lnknu is the logarithm of the modified spherical Bessel function k_l", "statement": "For every x > 0 and every order l <= lmax, exp(lnknu(x,lmax)[l]) equals (pi/2) e^-x/x sum_{j<=l} (l+j)!/(j!(l-j)!) (2x)^-j, and as a function of x it solves x^2 y'' + 2x y' - (x^2+l(l+1)) y = 0; a non-integer lmax raises TypeError.", "quantifier": "all x>0, all orders", "why_tests_cant": "Unbounded recursion in l over a continuum of arguments.", "anchors": ["CasimirRio/bessel_sk.py:lnknu"]}
{"id": "C25", "title": "lniknu orders 0 and 1 are the logarithms of sinh(x)/x and (x cosh x - sinh x)/x^2", "statement": "In every array that is ascending or lies on one side of 1e-3, the first two columns are exact for arguments >= 1e-3 (ideal arithmetic); below 1e-3 they differ from the exact logarithms by at most x^6/1000 and x^4/600. The reference functions are power series proved to solve the modified spherical Bessel equation and to equal the hyperbolic expressions.", "quantifier": "all x>0", "why_tests_cant": "Continuum of arguments.", "anchors": ["CasimirRio/bessel_sk.py:lniknu"]}
{"id": "C26", "title": "lniknu higher orders follow from the Wronskian with a continued fraction of fixed length (defect for large arguments)", "statement": "For every order l >= 2 the value is the Wronskian formula with i_l/i_{l+1} replaced by a continued fraction of 80 terms (140 if the last argument exceeds 100). With the exact ratio it is ln i_l. The fraction brackets the ratio (odd lengths below, even lengths above) and converges to it for every x>0. The computed ln i_l is too large, by less than ln 2 always, by at most 1e-19 (80 terms, x<=100) and 1e-14 (140 terms, x<=300). Defect: as the length is fixed, the error tends to ln 2 for x->infinity, for every order and every even length.", "quantifier": "all x>0, all orders l>=2, all truncation lengths", "why_tests_cant": "Continuum of arguments and all orders.", "anchors": ["CasimirRio/bessel_sk.py:lniknu", "CasimirRio/bessel_sk.py:fnu", "CasimirRio/bessel_sk.py:fraction"]}
{"id": "C27", "title": "Bessel evaluation is elementwise only for ascending or one-sided arrays (defect)", "statement": "The row of lniknu for an argument should not depend on the other arguments. Orders 0 and 1 are elementwise if all arguments lie on one side of 1e-3 or the array is ascending; otherwise the rows are those of the array permuted with the small arguments first, so an argument gets the value of another one. Orders >= 2 and all orders of ln k are elementwise among arrays whose last arguments lie on the same side of 100; an argument above 100 gets a different value if an argument below 100 follows it.", "quantifier": "all argument arrays", "why_tests_cant": "for all arrays and permutations.", "anchors": ["CasimirRio/bessel_sk.py:lniknu", "CasimirRio/bessel_sk.py:fnu"]}
{"id": "C28", "title": "mie_bessels and trans_bessels return the requested orders", "statement": "mie_bessels(kr,lmin,lmax) returns columns lmin..lmax of ln i and ln k (lmax-lmin+1 columns) and raises ValueError if lmin>lmax; trans_bessels returns ln k for exterior and ln i for interior geometry, orders 0..lmax.", "quantifier": "all argument arrays, all lmin, lmax", "why_tests_cant": "for all sizes.", "anchors": ["CasimirRio/bessel_sk.py:mie_bessels", "CasimirRio/bessel_sk.py:trans_bessels"]}
{"id": "C29", "title": "Gaunt coefficient evaluation is memory safe and has the documented length", "statement": "gaunt(l,lp,m) returns min(l,lp)+1 numbers, all zero if |m|>min(l,lp); every (unchecked) array access is in bounds and no division by zero occurs.", "quantifier": "all non-negative l, lp and all m", "why_tests_cant": "boundscheck is off; a test cannot show absence of out-of-bounds access for all sizes.", "anchors": ["CasimirRio/cython_gaunt.pyx:gaunt"]}
{"id": "C30", "title": "Gaunt coefficients have the symmetries of the integral of three spherical harmonics", "statement": "gaunt(l,lp,m) = gaunt(lp,l,m) = gaunt(l,lp,-m).", "quantifier": "all non-negative l, lp and all m", "why_tests_cant": "for all orders.", "anchors": ["CasimirRio/cython_gaunt.pyx:gaunt"]}
{"id": "C31", "title": "Gaunt coefficients linearize products of associated Legendre functions", "statement": "The returned numbers are the expansion coefficients of the product of two normalized associated Legendre functions of orders m and -m in Legendre polynomials.", "quantifier": "all non-negative l, lp, all |m| <= min(l,lp)", "why_tests_cant": "Correctness of a three-term recursion for all orders.", "anchors": ["CasimirRio/cython_gaunt.pyx:gaunt"]}
{"id": "C32", "title": "log-factorial helpers", "statement": "lfac(n) = ln n! and ln_2dbl(n) = ln (2n-1)!! for all natural n.", "quantifier": "all natural numbers", "why_tests_cant": "for all n.", "anchors": ["CasimirRio/helper_functions.py:lfac", "CasimirRio/helper_functions.py:ln_2dbl"]}
{"id": "C33", "title": "numerical derivative is exact on low-degree polynomials", "statement": "num_derivative(f,x) on an equidistant grid returns the exact derivative of every polynomial of degree <= 4 at interior points, degree <= 2 at the second and last but one, degree <= 1 at the ends; it keeps the length, is linear in f and raises ValueError for a non-increasing first step.", "quantifier": "all grids with >= 5 points, all polynomials", "why_tests_cant": "for all polynomials and grids.", "anchors": ["CasimirRio/helper_functions.py:num_derivative"]}
{"id": "C34", "title": "permittivity is at least one and decreases with imaginary frequency", "statement": "LorentzMaterial.epsilon(k) >= 1, is non-increasing in k>0, tends to 1 as k grows, adds the susceptibilities of concatenated oscillator lists, is independent of their order and acts elementwise on arrays.", "quantifier": "all oscillator lists with non-negative parameters, all k>0", "why_tests_cant": "Continuum of parameters and frequencies.", "anchors": ["CasimirRio/materials.py:LorentzMaterial.epsilon"]}
{"id": "C35", "title": "conductor flags describe the static limit of the permittivity", "statement": "is_dielectric is true exactly if epsilon(k) stays bounded as k->0; is_sigma_finite is true exactly if k*epsilon(k) stays bounded as k->0 (finite static conductivity).", "quantifier": "all oscillator lists with non-negative parameters", "why_tests_cant": "Limits cannot be tested.", "anchors": ["CasimirRio/materials.py:is_sigma_finite", "CasimirRio/materials.py:is_dielectric"]}
{"id": "C36", "title": "permeability interpolates between its static value and one", "statement": "mu(k) equals 1 without magnetic parameters, equals mu(0) at k=0, lies between 1 and mu(0) and tends to 1 at large k; is_magnetic is truthy exactly if magnetic parameters are given with non-zero static value.", "quantifier": "all magnetic parameters, all k>=0", "why_tests_cant": "Continuum.", "anchors": ["CasimirRio/materials.py:LorentzMaterial.mu", "CasimirRio/materials.py:is_magnetic"]}
{"id": "C37", "title": "the predefined materials are well formed", "statement": "Every predefined oscillator material has non-negative parameters, hence epsilon >= 1 for every k>0, and its flags are as the name says (plasma variants have infinite static conductivity, Drude metals finite, the liquids and polymers are dielectrics).", "quantifier": "all predefined materials and all k>0", "why_tests_cant": "epsilon bound ranges over all k.", "anchors": ["CasimirRio/materials.py"]}
{"id": "C38", "title": "Fresnel coefficients are bounded by one and antisymmetric", "statement": "|r_TE|,|r_TM| < 1 for positive permittivities and permeabilities, exchanging the two materials flips the signs, equal materials give zero, the denser non-magnetic material has r_TM>0>r_TE, and the perfect conductor values (-1,1) are the limits for infinite permittivity.", "quantifier": "all materials, all wavenumbers", "why_tests_cant": "Continuum.", "anchors": ["CasimirRio/scattering.py:scattering.fresnel", "CasimirRio/scattering.py:scattering.fresnelPEC"]}
{"id": "C39", "title": "Mie coefficients vanish for index-matched spheres and are well defined otherwise", "statement": "mie gives exactly zero TE and TM coefficients when sphere and medium have equal epsilon and mu; for positive parameters the denominators never vanish.", "quantifier": "all materials, k, r, orders", "why_tests_cant": "Continuum.", "anchors": ["CasimirRio/scattering.py:scattering.mie"]}
{"id": "C40", "title": "Mie coefficients solve the boundary matching problem", "statement": "The (unscaled) TE/TM coefficients returned by mie and mie_internal are the unique amplitudes for which interior and exterior multipole fields match at the sphere surface.", "quantifier": "all materials, k, r, orders", "why_tests_cant": "Continuum.", "anchors": ["CasimirRio/scattering.py:scattering.mie", "CasimirRio/scattering.py:scattering.mie_internal"]}
{"id": "C41", "title": "zero-frequency Mie coefficients are the limits of the finite-frequency ones, except for plasma exteriors (defect)", "statement": "In an insulating medium mie_k0 returns, for every radius and order, the limit k->0 of T_l/(n k R)^(2l+1) for perfectly conducting, insulating (dielectric and magnetic) and Drude spheres, and mie_internal_k0 that of T_l (n k R)^(2l+1). For plasma spheres TM is exact, TE has the Bessel ratio replaced by a continued fraction of fixed length and lies strictly between the limit and the perfect conductor. Defect: for a plasma exterior the TE entry of mie_internal_k0 is the limit only if wP R/c = 2l-1, and a first order above 1 raises ValueError. Media with free charges raise NotImplementedError.", "quantifier": "all orders, radii and materials of the class", "why_tests_cant": "A limit.", "anchors": ["CasimirRio/scattering.py:scattering.mie_k0", "CasimirRio/scattering.py:scattering.mie_internal_k0"]}
{"id": "C42", "title": "coated spheres reduce to solid spheres", "statement": "A coating of the core material gives the solid sphere of the outer radius, a coating of the medium gives the solid sphere of the inner radius; appending shells of the outermost material does not change the stratified result.", "quantifier": "all materials, radii ri<ra, k, orders, numbers of shells", "why_tests_cant": "Continuum and unbounded number of shells.", "anchors": ["CasimirRio/scattering.py:coated_miescattering.mie_coated", "CasimirRio/stratified_sphere_scattering.py:StratifiedMieScattering"]}
{"id": "C43", "title": "evaluating a stratified sphere cuts the caller's lists in place (defect)", "statement": "mie_stratified should not modify the material and radius lists passed in, but it does: after the call they are the prefixes in which the outer run of equal materials is cut to one element (two materials remain at least); they are unchanged exactly if there are two materials or the last two differ. The value is the shell-by-shell result of the cut lists, and a further call returns the same value and changes nothing.", "quantifier": "all material and radius lists", "why_tests_cant": "Aliasing across calls, all lists.", "anchors": ["CasimirRio/stratified_sphere_scattering.py:StratifiedMieScattering.mie_stratified"]}
{"id": "C44", "title": "translation coefficients obey parity and polarization selection rules", "statement": "V_ba = (-1)^(l1+l2) V_ab for polarization-conserving and V_ba = -(-1)^(l1+l2) V_ab for mixing coefficients; mixing vanishes for m=0; the coefficients are symmetric in l1,l2; m -> -m keeps the conserving and negates the mixing ones. For positive wavenumbers trans_ab returns one finite number per wavenumber, pair of orders and kind. The forceFlag (announced for force calculations) never yields an object, and a zero wavenumber among several raises AttributeError.", "quantifier": "all l1,l2,m,k,L, both geometries", "why_tests_cant": "for all orders.", "anchors": ["CasimirRio/translation.py:translation.get_vl1l2"]}
{"id": "C45", "title": "static translation coefficients are the low-frequency limits", "statement": "With x = n k L: trans_k0 in the exterior geometry is the limit of x^(l1+l2+1) V_ab, including its sign, and in the interior geometry (-1)^|l1-l2| times the limit of V_ab/x^|l1-l2|; V_ba has the sign (-1)^(l1+l2) relative to it; the mixing coefficients, scaled alike, tend to 0. In the interior geometry the coefficients tend to the identity. trans_ab at k=[0] is the table of trans_k0.", "quantifier": "all l1,l2,m", "why_tests_cant": "A limit for all orders.", "anchors": ["CasimirRio/translation.py:translation.trans_k0_ext", "CasimirRio/translation.py:translation.get_vl1l2"]}
{"id": "C46", "title": "PFA surface distance, wrong if the inner sphere is the second one (defect)", "statement": "distance(r1,r2,d,rho) is the distance along the axis of the facing points of both spheres: for separate spheres and for sphere 1 inside sphere 2. At rho=0 it is the gap, it is never below the gap and strictly increasing in rho, symmetric in the spheres for the external case; rho beyond the smaller radius raises ValueError. Defect: for sphere 2 inside sphere 1 it is negative for every rho.", "quantifier": "all radii, distances and rho", "why_tests_cant": "Continuum.", "anchors": ["CasimirRio/PFA.py:SphereSpherePFA.distance"]}
{"id": "C47", "title": "PFA round-trip functions are consistent and have the right sign, except for negative separations (defect)", "statement": "roundTrips returns ln(1 - r1 r2 exp(-2 kz L)) for both polarizations, roundTrip equals their sum, pressureRoundTrip the sum of pressureRoundTrips; all are symmetric under exchange of the two materials; for equal plates they are <= 0 (strictly, if the plate reflects) and increase with the separation; for a medium of intermediate permittivity they are positive (repulsion). Defect: for two conductors at a negative separation (which distance can return) roundTrips raises while roundTrip returns a number.", "quantifier": "all materials, wavenumbers, separations", "why_tests_cant": "Continuum.", "anchors": ["CasimirRio/PFA.py:SphereSpherePFA.roundTrip", "CasimirRio/PFA.py:SphereSpherePFA.roundTrips", "CasimirRio/PFA.py:SphereSpherePFA.pressureRoundTrip"]}
{"id": "C48", "title": "the PFA pressure is half of the negative distance derivative of the free energy (defect)", "statement": "The pressure integrand should be minus the L-derivative of the free-energy integrand. It is exactly one half of that for all plates, wavenumbers and separations, also after integration over any interval of wave vectors; so it is wrong wherever it is not zero.", "quantifier": "all materials, wavenumbers, separations", "why_tests_cant": "A derivative.", "anchors": ["CasimirRio/PFA.py:SphereSpherePFA.pressureRoundTrips"]}
{"id": "C49", "title": "interpolated and extrapolated dielectric data keep the requested grid, except for single and descending requests", "statement": "For a strictly ascending grid of at least two frequencies overlapping the data range get_drude_data returns one value per frequency in order: the data polyline strictly inside the range (within the bounds of the data), the fitted Drude law elsewhere. Without overlap it raises IndexError. Defects: a single frequency always gets hard-coded gold parameters, independent of data and fit; for descending grids even the number of values is wrong.", "quantifier": "all ascending grids", "why_tests_cant": "for all grids.", "anchors": ["CasimirRio/data_inter_extrapolation.py:data_interp_extrap"]}
{"id": "C50", "title": "saving results keeps the first result but overwrites later ones (defect)", "statement": "save_result should write each result to a fresh file. It never touches an existing output file, but for every sequence of at least two runs with one output name only the first result and (in the file with suffix 1) the last one survive; all other files are untouched.", "quantifier": "all file system states and histories of runs", "why_tests_cant": "History of runs.", "anchors": ["CasimirRio/worker.py:save_result"]}
{"id": "C51", "title": "unit conversion overwrites its input (defect)", "statement": "materials_converter.transform returns sqrt(f) w and w with w=E eV/hbar for every oscillator, but in the caller's own inner lists: every entry with non-zero energy is changed by the call; lists outside the argument are unchanged; a negative strength raises ValueError after the preceding entries have been converted.", "quantifier": "all parameter lists", "why_tests_cant": "Aliasing.", "anchors": ["CasimirRio/materials_converter.py:transform"]}
{"id": "C52", "title": "trace evaluation: the stopping rule of the sum over m tests the wrong quantity (defect)", "statement": "With evaluation=\"trace\" the sum over m is meant to stop when the relative change drops below precision. The code compares |new/old| itself with precision: for contributions of one sign it never stops before lmax (for every precision <= 1), while it stops at a step where the contributions cancel, however large that step is.", "quantifier": "all sequences of contributions, all lmax, all precisions", "why_tests_cant": "For all sequences of contributions; a test sees only a slow, correct result.", "anchors": ["CasimirRio/geometry.py:SphereSphere.mSum_roundtrips"]}
{"id": "C53", "title": "the worker accepts a configuration exactly if ... and maps it to constructor arguments", "statement": "return_geometry succeeds exactly if both radii are numbers or number lists, the distance and the precision are numbers, lmax and lssmax are present, and l_offset is an integer or, unless lmax is automatic, missing (then 0); the values are passed on unchanged, evaluation defaults to lndet. precision=automatic, announced as valid, raises UnboundLocalError, and analytic_n0 must be present but its value is ignored: the zero term is analytic exactly if both radii are plain numbers (defects).", "quantifier": "all configuration files and command lines", "why_tests_cant": "Quantifies over all combinations of present, missing and malformed options.", "anchors": ["CasimirRio/worker.py:return_geometry", "CasimirRio/worker.py:do_calculation"]}
{"id": "C54", "title": "matrices of the force evaluation: diagonal blocks follow the product rule, off-diagonal blocks do not (defect)", "statement": "With forceFlag blockmatrices should return the derivative with respect to the distance of the blocks (the derivatives of the translation coefficients being given). The EE and MM blocks are this derivative for every m > 0, all four are for m = 0; for m > 0 the EM and ME blocks contain one product V2 V1 of translation coefficients undifferentiated and are wrong by exactly that amount.", "quantifier": "all m, sizes, Mie coefficients, scale factors and differentiable translation coefficients", "why_tests_cant": "For all coefficient functions; a finite-difference test needs the full geometry.", "anchors": ["CasimirRio/geometry.py:SphereSphere.blockmatrices"]}
{"id": "C55", "title": "PFA Matsubara sums have the right weights; the force ignores the shielding flag (defect)", "statement": "For any quadrature the free energy per area is T (I(0)/2 + sum_{n=1}^{nmax} I(nT)), the first term dropped with n0_shielding, likewise the pressure; T=0 gives an integral (the pressure raises ZeroDivisionError), T=inf half the zero-frequency integral. Every omitted round trip carries a factor below exp(-40). Equal plates attract. The force between spheres is Derjaguin's factor times the free energy at the smallest distance, in both geometries. Defects: spheresphereForce ignores n0_shielding; the energy integrand raises between the radii if r1 > r2.", "quantifier": "all materials, temperatures, distances, radii and quadratures", "why_tests_cant": "Continuum of parameters.", "anchors": ["CasimirRio/PFA.py:SphereSpherePFA.planeplaneFreeEnergy", "CasimirRio/PFA.py:SphereSpherePFA.spheresphereForce"]}
{"id": "C56", "title": "raw_PFA: frequency terms overwrite the caller's array, and force and energy are inconsistent (defects)", "statement": "get_f_matsubaras returns the sum of both polarizations per frequency with full weight for the first one (PFA.py: half weight), and replaces a leading zero in the caller's array by 1e-20. The Matsubara sum has weight one half for the first term. spheresphereEnergy is L/2 times spheresphereForce, so the force is the negative derivative of the energy at L exactly if the free energy per area has logarithmic derivative -3 there.", "quantifier": "all materials, temperatures, distances, radii and quadratures", "why_tests_cant": "Aliasing and a derivative.", "anchors": ["CasimirRio/raw_PFA.py:SphereSpherePFA.get_f_matsubaras", "CasimirRio/raw_PFA.py:SphereSpherePFA.spheresphereEnergy"]}
{"id": "C57", "title": "static round-trip blocks are the zero-frequency limit of the finite-frequency round trip, except in magnetic media (defect)", "statement": "In the exterior geometry, for two solid spheres, every m, all sizes and every insulating medium with mu(0)=1: det(1 - z M(k)) of the matrices of blockmatrices tends for k->0+ to the product of det(1 - z EE0) and det(1 - z MM0) of blockmatrices_k0, for every z, so the log-determinant tends to the sum of theirs. Defect: translations use k L sqrt(eps) while Mie coefficients use sqrt(eps mu); for perfectly conducting spheres in a medium with mu(0) <> 1 the static blocks are not the limit.", "quantifier": "all radii, distances, materials, m, lmax, lssmax", "why_tests_cant": "A limit, for all sizes.", "anchors": ["CasimirRio/geometry.py:SphereSphere.blockmatrices_k0", "CasimirRio/geometry.py:SphereSphere.blockmatrices"]}
{"id": "C58", "title": "the log-determinant does not depend on which sphere is called the first", "statement": "In the exterior geometry exchanging the two spheres (materials, layers, radii, lmax with lssmax) changes neither det(1-M) nor the traces of the powers of the round-trip matrix M, at every frequency, for every m, all sizes, any Mie Bessel routine; the program returns the same number (whenever the Mie coefficients exist). The static blocks have the same product of determinants and sum of traces.", "quantifier": "all configurations, wavenumbers, m, lmax, lssmax and Mie Bessel routines", "why_tests_cant": "For all sizes of matrices; needs determinant identities.", "anchors": ["CasimirRio/geometry.py:SphereSphere.blockmatrices", "CasimirRio/geometry.py:SphereSphere.blockmatrices_k0"]}
{"id": "C59", "title": "the sum over m may use m >= 0 only: m and -m contribute equally", "statement": "For every configuration (both geometries), every m > 0 with orders in range, the round-trip matrices for m and -m have equal det(1-M) and equal traces of powers, and the program returns the same number for both; so counting every m > 0 twice is right.", "quantifier": "all configurations, wavenumbers, m, lmax, lssmax and Mie Bessel routines", "why_tests_cant": "For all sizes of matrices.", "anchors": ["CasimirRio/geometry.py:SphereSphere.blockmatrices", "CasimirRio/geometry.py:SphereSphere.mSumme"]}
{"id": "C60", "title": "without material scales only ratios of lengths and k times length matter", "statement": "If no material in use is dispersive (perfect reflectors, vacuum), multiplying all radii and the distance by f and dividing all wavenumbers by f changes no result of the log-determinant evaluation, including errors, for solid and layered spheres, both geometries, whatever the Bessel routines do; the static result for perfect reflectors is unchanged; the constructor chooses the same geometry.", "quantifier": "all f > 0, configurations, lists of wavenumbers, m, fuels", "why_tests_cant": "Equality of real-valued results for a continuum of scales.", "anchors": ["CasimirRio/geometry.py:SphereSphere.blockmatrices", "CasimirRio/geometry.py:SphereSphere.blockmatrices_k0", "CasimirRio/geometry.py:SphereSphere.__init__"]}
{"id": "C61", "title": "bodies on the same side of the medium attract, bodies on opposite sides repel", "statement": "At every frequency and for every m: if both spheres are optically denser (and not more magnetic) than the medium, or both the reverse, all traces of powers of the round-trip matrix are >= 0 and, if the trace is below 1, the computed log-determinant lies between ln(1 - tr M) and -tr M. If they are on opposite sides, the traces alternate in sign and the log-determinant is >= ln(1 - tr M) >= 0. Both geometries; perfect reflectors are denser than every medium, with the Bessel functions the code computes.", "quantifier": "all configurations, wavenumbers, m, lmax, lssmax", "why_tests_cant": "Sign of determinants of all sizes; relies on Turan-type inequalities for Bessel functions.", "anchors": ["CasimirRio/geometry.py:SphereSphere.blockmatrices", "CasimirRio/scattering.py:scattering.mie", "CasimirRio/geometry.py:SphereSphere.mSumme"]}
{"id": "C62", "title": "the interaction decays like exp(-2 n k L)", "statement": "In the exterior geometry, for every configuration, wavenumber, m and all sizes, and any Mie coefficients: there is a constant C such that at every distance L of at least one decay length the trace of the round trip, det(1-M)-1 and (once small) the number returned by the program are at most C exp(-2 n k L) in modulus; so the contribution vanishes for L -> infinity and the trace is below 1 for large L. At zero frequency the decay is algebraic: |det - 1| and the static contribution are at most C / L^6.", "quantifier": "all configurations, wavenumbers, m, lmax, lssmax; all distances beyond one decay length", "why_tests_cant": "A bound for all distances and sizes.", "anchors": ["CasimirRio/geometry.py:SphereSphere.blockmatrices", "CasimirRio/translation.py:translation.trans_ab"]}
{"id": "C63", "title": "the zero-frequency term of the enclosed geometry raises for all but one pair of orders (defect)", "statement": "For a sphere inside another one blockmatrices_k0 should return the low-frequency limit of the finite-frequency round trip. It raises TypeError (np.float of an array) whenever more than one pair (l, lss) of orders occurs, so the zero-frequency term of every m, and every list of wavenumbers starting with zero, raises. For a single pair the blocks are the limit: det(z - M(k)) tends to the product of det(z - EE0) and det(z - MM0) for every z, and the trace likewise, for every permeability of the medium.", "quantifier": "all radii, distances, materials, m, lmax, lssmax", "why_tests_cant": "A limit, and an error for all sizes.", "anchors": ["CasimirRio/geometry.py:SphereSphere.blockmatrices_k0_int", "CasimirRio/geometry.py:SphereSphere.single_m_k0"]}
{"id": "C64", "title": "the polarization channels add up to the round-trip blocks", "statement": "blockmatrices_channels returns eight arrays: for every frequency each one is the contribution of one path (polarization leaving sphere 1, at sphere 2, arriving at sphere 1), all conjugated with the same positive diagonal matrix; the eight paths make up the round-trip operator. For every request (any m, any list of wavenumbers, also starting with zero) they add up in pairs to the arrays of blockmatrices, in the order EE, MM, EM, ME, or both methods raise the same error; also with the factors of the force evaluation.", "quantifier": "all configurations, wavenumbers, m, sizes", "why_tests_cant": "For all sizes.", "anchors": ["CasimirRio/geometry.py:SphereSphere.blockmatrices_channels", "CasimirRio/geometry.py:SphereSphere.blockmatrices"]}
{"id": "C65", "title": "blockmatrices_debug changes the determinant and fails for m = 0 and for zero frequency (defect)", "statement": "blockmatrices_debug should return blocks that are equivalent to those of blockmatrices. For one order it does. For more orders each block is conjugated with a diagonal matrix of its own, so det(1-M) of the assembled matrix is in general wrong; vanishing products give log 0: for m = 0 the mixing blocks are NaN at every frequency whenever there is more than one order; with a leading zero frequency the method always raises (NameError, as mEE_k0 is never assigned).", "quantifier": "all configurations, wavenumbers, m, sizes", "why_tests_cant": "NaN and errors for all sizes.", "anchors": ["CasimirRio/geometry.py:SphereSphere.blockmatrices_debug"]}
{"id": "C66", "title": "free_energy of the composed program returns the Matsubara sum of ln|det(1-M)|, cut per slice of frequencies", "statement": "finiteT.free_energy for a SphereSphere geometry with its caches, from the constructor state on: for any two solid spheres, every temperature grid and all sizes it returns one number per temperature, T(f0/2 + sum_j f(jT)), where f(k) is the weighted sum over m of ln|det(1-M_m(k))| stopped by the rule of mSumme for the slice of 50 frequencies that contains k, f0 the same from the zero-frequency limit (analytic) or from k = 1e-10; the object is left consistent. Bodies on opposite sides of the medium: all entries >= 0; on the same side with traces below 1: all <= 0; for any materials the calculation succeeds beyond some distance and all entries tend to 0 for L -> infinity.", "quantifier": "all configurations, temperature steps, numbers of frequencies, lmax, lssmax, precisions", "why_tests_cant": "Whole calculation; limits and sums for all sizes.", "anchors": ["CasimirRio/thermodynamics.py:finiteT.free_energy", "CasimirRio/geometry.py:SphereSphere.mSumme", "CasimirRio/geometry.py:SphereSphere.mSumme_k0"]}
{"id": "C67", "title": "mSumme of the composed program is the weighted sum over m of ln|det(1-M_m)|, whatever was asked before", "statement": "For two solid spheres, every list of positive wavenumbers and every object state whose attributes belong together: mSumme returns, for each wavenumber, f_0 + 2 f_1 + ... + 2 f_M of ln|det(1-M_m(k))| with the M of the stop rule, and leaves the attributes consistent for the next request. mSumme_k0 returns the same sum of the zero-frequency limits of ln det(1-M_m(k)).", "quantifier": "all configurations, wavenumbers, lmax, lssmax, precisions, histories", "why_tests_cant": "Whole calculation with state.", "anchors": ["CasimirRio/geometry.py:SphereSphere.mSumme", "CasimirRio/geometry.py:SphereSphere.mSumme_k0", "CasimirRio/geometry.py:SphereSphere.matrixelements"]}
{"id": "C68", "title": "the force flag of the geometry makes every evaluation fail, and forces are free energies (defect)", "statement": "SphereSphere should be able to evaluate forces. With forceFlag set, mSumme raises AttributeError for every list of positive wavenumbers and mSumme_k0 raises NotImplementedError, and the flag stays set; mSum_trace_dot, the only method for forces, sets it and raises always. Hence finiteT.force raises for nmax >= 50 and leaves an object for which all later free_energy and entropy calls (also of other finiteT objects with this geometry) raise; for 1 <= nmax <= 49 it returns exactly the numbers of the free energy (numeric zero-frequency term). Only supermatrix(m, ks, 0) clears the flag.", "quantifier": "all configurations of two solid spheres, wavenumbers, temperature grids, histories", "why_tests_cant": "State left behind by failing calls, for all sizes.", "anchors": ["CasimirRio/geometry.py:SphereSphere.mSum_trace_dot", "CasimirRio/thermodynamics.py:finiteT.force", "CasimirRio/geometry.py:SphereSphere.blockmatrices"]}
{"id": "C69", "title": "the single-round-trip class cannot run, and its sign is reversed (defect)", "statement": "oneRoundtrip should return the first term, -tr M, of the free energy. With Python 3 mSum_oneRoundtrip raises NameError (xrange) for all wavenumbers, so free_energy always raises; force always raises AttributeError (missing method). With xrange defined, mSum_oneRoundtrip returns sum_m tr M_m(k), m up to min(lmax, max(1, round(log_(1/2) precision))) or the given bound, and free_energy T(f(1e-10)/2 + sum_j f(jT)) of these sums; with the opposite sign: >= 0 for bodies on the same side of the medium, <= 0 for bodies on opposite sides, where the free energy is <= 0 and >= 0.", "quantifier": "all configurations of two solid spheres, wavenumbers, temperature grids, histories", "why_tests_cant": "For all sizes and states.", "anchors": ["CasimirRio/geometry.py:SphereSphere.mSum_oneRoundtrip", "CasimirRio/thermodynamics.py:oneRoundtrip.F_alle"]}
{"id": "C70", "title": "e0 integrates the sum over m; the other zero-temperature methods always fail (defect)", "statement": "For whatever points an adaptive quadrature visits, each one depending on the values before: e0 returns the integral and error estimate of that quadrature for the function k -> sum over m of ln|det(1-M_m(k))| cut by the stop rule, with upper limit nmax*deltaT if b is None, and leaves the geometry consistent. With the force flag left in the geometry it raises AttributeError. F_tempcorr raises TypeError at its first evaluation of the integrand (a float is indexed), l_konvergenz raises AttributeError for every pair of geometries that can be built (F_zero_T does not exist).", "quantifier": "two solid spheres, all quadrature procedures, limits, lmax, lssmax, states", "why_tests_cant": "For all adaptive quadratures and states.", "anchors": ["CasimirRio/thermodynamics.py:finiteT.e0", "CasimirRio/thermodynamics.py:finiteT.F_tempcorr", "CasimirRio/thermodynamics.py:finiteT.l_konvergenz"]}
{"id": "C71", "title": "CoatedSphereSphere cannot evaluate anything at finite frequency and ignores the cores at zero frequency (defect)", "statement": "CoatedSphereSphere should give the interaction of coated spheres. roundTrip_elements calls mie_coated with four instead of five arguments, so every finite-frequency evaluation raises TypeError and leaves the object unchanged, in every reachable state; free_energy and entropy raise for nmax >= 1. The zero-frequency sum does not depend on cores and inner radii, it is that of solid spheres of the coating materials; with the default forceFlag = 0, which arrives as lssmax, it raises for every lmax >= 2.", "quantifier": "all radii, materials, cutoffs, wavenumbers, states", "why_tests_cant": "For all sizes and states.", "anchors": ["CasimirRio/geometry.py:CoatedSphereSphere.roundTrip_elements", "CasimirRio/geometry.py:CoatedSphereSphere.__init__", "CasimirRio/geometry.py:SphereSphere.mSumme_k0"]}
{"id": "C72", "title": "a sphere inside a cavity has no free energy with the analytic zero-frequency term (defect)", "statement": "For a sphere inside another one (the enclosed geometry) with more than one pair of orders finiteT, with its default analytic_n0 = True, should return free energies and entropies. Both always raise TypeError, for every number of frequencies and both evaluation modes, and so does every request of mSumme or mSumme_k0 that includes the frequency zero, in every state of the object; the object stays usable. With analytic_n0 = False the calculation succeeds (C66), e.g. with non-negative results for a bubble in a reflecting cavity.", "quantifier": "all configurations of two solid spheres, lmax, lssmax, temperature grids, histories", "why_tests_cant": "For all sizes and states.", "anchors": ["CasimirRio/thermodynamics.py:finiteT.free_energy", "CasimirRio/geometry.py:SphereSphere.blockmatrices_k0_int", "CasimirRio/geometry.py:SphereSphere.mSumme"]}
{"id": "C74", "title": "signs and decay of the exterior translation coefficients", "statement": "For two spheres beside each other and every pair of orders l1, l2 >= 1, every |m| <= min(l1, l2), every imaginary frequency, distance and medium, the translation coefficients computed by translation.py have a definite sign although the sums over lpp alternate: EE_ab has the sign (-1)^m of the static coefficient, for m <> 0 EM_ab has the sign of -m (-1)^m, the coefficients of the way back follow with (-1)^(l1+l2), and none is zero (but the mixed ones for m = 0). The absolute value of each is strictly smaller at a larger distance.", "quantifier": "all orders l1, l2, m, truncations, media with positive permittivity, frequencies and distances", "why_tests_cant": "For all orders; the decisive cancellations are not visible numerically.", "anchors": ["CasimirRio/translation.py:translation.get_vl1l2", "CasimirRio/translation.py:translation.__init__"]}
{"id": "C75", "title": "the further apart, the weaker: monotone attraction between bodies on the same side of the medium", "statement": "In the exterior geometry, for two solid spheres on the same side of the medium, every frequency, m and all sizes: all traces of powers of the round-trip matrix are smaller or equal at a larger distance. If the trace at the smaller distance L is below 1, the program returns numbers v at L and v' at L' > L with v + (tr M(L) - tr M(L')) <= v' <= -tr M(L'). For perfect reflectors, with the Bessel functions of the code, traces are positive and everything is strict; free_energy without early stop (precision <= 0, numeric zero-frequency term) is, at every temperature, strictly lower at the smaller distance, and negative: the force is attractive.", "quantifier": "all radii, materials, media, wavenumbers, m, lmax, lssmax, pairs of distances, temperature grids", "why_tests_cant": "Order of determinants of all sizes over a continuum of distances.", "anchors": ["CasimirRio/geometry.py:SphereSphere.blockmatrices", "CasimirRio/translation.py:translation.get_vl1l2", "CasimirRio/thermodynamics.py:finiteT.free_energy"]}
{"id": "C76", "title": "truncation: coefficients do not depend on the largest orders, and higher orders only add attraction", "statement": "Mie coefficients of a solid sphere (outside and inside) and translation coefficients for given orders are the same for all larger lmax, lssmax, although the Bessel functions come from one recursion over all orders. Exterior geometry, two solid spheres on the same side of the medium: all traces of powers of the round-trip matrix grow with lmax and lssmax; if the larger trace is below 1 the program returns v for (N, M) and v' for (N', M') >= (N, M) with v' + (tr M' - tr M) <= v <= -tr M. For perfect reflectors, with the Bessel functions of the code, raising one of the orders strictly lowers the value, and strictly lowers all entries of free_energy without early stop (precision <= 0, numeric zero-frequency term): every truncated result is an upper bound of all better ones.", "quantifier": "all radii, materials, media, wavenumbers, m, pairs of truncations, temperature grids", "why_tests_cant": "Order of determinants of different, unbounded sizes.", "anchors": ["CasimirRio/geometry.py:SphereSphere.blockmatrices", "CasimirRio/scattering.py:scattering.mie", "CasimirRio/translation.py:translation.get_vl1l2", "CasimirRio/thermodynamics.py:finiteT.free_energy"]}
{"id": "C73", "title": "evaluation by traces agrees with the determinant within the requested precision", "statement": "Two solid spheres on the same side of the medium (both geometries), traces of the round-trip matrices between 0 and tau < 1. For every m and wavenumber the partial sums of -tr M - tr M^2/2 - ... bound the computed ln det(1-M) from above, and the difference is at most the next term divided by 1 - tr M. With evaluation = \"trace\" and 0 < precision < 1, mSum_roundtrips returns for every list of wavenumbers and every state (the force flag is cleared); it never stops early in m, and the sum of ln det over all m lies between r(1 + precision*tau/(1-tau)) and the returned r. finiteT.free_energy then returns, with the numeric zero-frequency term, values x with the exact Matsubara sum between x(1 + precision*tau/(1-tau)) and x, for all temperatures.", "quantifier": "all radii, materials, media, wavenumbers, lmax, lssmax, precisions in (0,1), temperature grids, states", "why_tests_cant": "Termination and error of an unbounded while loop on matrices of all sizes.", "anchors": ["CasimirRio/geometry.py:SphereSphere.mSum_roundtrips", "CasimirRio/geometry.py:SphereSphere.arbitrary_roundtrips", "CasimirRio/geometry.py:SphereSphere.supermatrix", "CasimirRio/thermodynamics.py:finiteT.free_energy"]}
{"id": "C77", "title": "larger spheres and denser materials attract more strongly; perfect reflectors bound everything", "statement": "The Mie coefficients of a solid sphere, with the sign of C61 removed, do not decrease when the radius grows or when the material deviates more from the medium on the same side (perfect reflectors deviate most), for every order, frequency and medium. Hence, in the exterior geometry, for two pairs of solid spheres with the same centres: all traces of powers of the round-trip matrix grow with both radii and with the contrast, and if the larger trace is below 1 the program returns v for the weaker and v' for the stronger pair with v' + (tr M' - tr M) <= v <= -tr M. Bodies denser than the medium attract each other at most as strongly as perfect reflectors of the same radii, and for perfect reflectors a larger radius strictly lowers the value.", "quantifier": "all orders, radii, materials, media, wavenumbers, m, lmax, lssmax", "why_tests_cant": "Monotone dependence through special functions and determinants of unbounded size.", "anchors": ["CasimirRio/scattering.py:scattering.mie", "CasimirRio/geometry.py:SphereSphere.blockmatrices"]}
{"id": "C78", "title": "signs and growth of the interior translation coefficients", "statement": "For a sphere inside a cavity and every pair of orders l1, l2 >= 1, every |m| <= min(l1, l2), every imaginary frequency, distance of the centres and medium, the translation coefficients of translation.py with exact Bessel functions i_l have a definite sign although the sums over lpp have terms of both signs: EE_ab has the sign (-1)^(l1+l2), EE_ba is positive, for m <> 0 EM_ab has the sign of m (-1)^(l1+l2) and EM_ba that of -m; none of them is zero. The absolute value of each is strictly larger if the centres are further apart.", "quantifier": "all orders, m, wavenumbers, distances, permittivities of the medium", "why_tests_cant": "Integrals of products of associated Legendre functions with all powers, for all orders; not a finite check.", "anchors": ["CasimirRio/translation.py:translation.get_vl1l2"]}
{"id": "C79", "title": "a sphere in a cavity is attracted by the wall, the more the further it is from the centre", "statement": "The coefficients of mie_internal, with the sign of C61 removed, do not decrease when the cavity gets narrower or the material of the wall deviates more from the medium on the same side. For a solid sphere in a cavity (the enclosed geometry), sphere and wall on the same side of the medium: all traces of powers of the round-trip matrix grow with the distance of the centres, the radius of the sphere, the contrast of sphere and wall, and fall with the radius of the cavity. If the larger trace is below 1, the program returns v and v' with v' + (tr M' - tr M) <= v <= -tr M. For perfect reflectors any such change is strict. For bodies denser than the medium the trace tends to zero with the radius of the sphere, so that it is below 1 for all small spheres.", "quantifier": "all radii, distances, materials, media, wavenumbers, m, lmax, lssmax", "why_tests_cant": "Monotone dependence through special functions and determinants of unbounded size; in the enclosed geometry the round trip changes signs that only cancel in the determinant.", "anchors": ["CasimirRio/scattering.py:scattering.mie_internal", "CasimirRio/geometry.py:SphereSphere.blockmatrices", "CasimirRio/translation.py:translation.get_vl1l2"]}
{"id": "C80", "title": "truncated results converge geometrically when the largest orders grow", "statement": "Exterior geometry, two solid spheres on the same side of the medium, every m and frequency. If lmax and lssmax grow, the traces of all powers of the round-trip matrix stay bounded and converge; in a medium with permeability 1 this holds for all spheres that do not overlap, and the remainder is at most a constant times ((ra+rb)/L)^(lmax+1-max(1,m)) plus the same for lssmax. An explicit number B(m,k,ra,rb,L) bounds the traces for all orders at once. If B < 1, the program returns a number v for every pair (lmax, lssmax), all v lie above one limit w between ln(1-B) and 0, and v - w is at most 2B/(1-B) times the square root of the sum of q^(lmax+1-max(1,m)) and q^(lssmax+1-max(1,m)), q the square of the ratio above. For all spheres far enough apart B < 1, so the results converge.", "quantifier": "all radii, distances, materials, media, wavenumbers, m, all lmax and lssmax", "why_tests_cant": "A limit of determinants of unbounded size with an explicit rate; needs bounds of Mie and translation coefficients uniform in the orders.", "anchors": ["CasimirRio/geometry.py:SphereSphere.blockmatrices", "CasimirRio/scattering.py:scattering.mie", "CasimirRio/translation.py:translation.get_vl1l2"]}
{"id": "C81", "title": "free energies converge when the largest orders and the number of frequencies grow", "statement": "Exterior geometry, two solid spheres on the same side of a non-magnetic medium, centres at least five times the sum of the radii apart. For every m, frequency and all sizes the trace of the round-trip matrix is at most (1/2)(1/81)^(max(1,m)-1) exp(-n k L/70), and the log-determinant returned lies between minus twice that number and minus the trace. Hence finiteT.free_energy without early stop (precision <= 0) and with the numeric zero-frequency term returns, for every temperature of the grid, a negative number that decreases with lmax, lssmax and nmax towards a finite limit; the frequencies beyond nmax contribute at most 4 T r^(nmax/i+1)/(1-r) with r = exp(-n0 L T/70).", "quantifier": "all such configurations, materials, temperature grids, lmax <= lssmax, nmax", "why_tests_cant": "Limits of complete calculations over three parameters; needs bounds uniform in all of them.", "anchors": ["CasimirRio/thermodynamics.py:finiteT.free_energy", "CasimirRio/geometry.py:SphereSphere.mSumme", "CasimirRio/geometry.py:sln_det_3d"]}
{"id": "C82", "title": "num_derivative(interpolate=True) differentiates the power laws through neighbouring data", "statement": "For data of one sign at positive equidistant nodes the result is every multiplier-th entry of the plain num_derivative of the values sampled, with multiplier steps per interval, from the power laws through neighbouring data; for data of mixed sign the same for the data shifted by |smallest value| + 1. With multiplier 1 it is the plain derivative. For data on a power law c x^p the interpolation adds no error; for integer p <= 4 all inner values are exact (plain num_derivative only up to degree 2 at the second and last but one node). For multiplier to infinity the result tends to the slope of the neighbouring power law at the ends and to the mean of the slopes of both neighbouring power laws at inner nodes. Decreasing nodes and wrong lengths raise ValueError, too few nodes IndexError.", "quantifier": "all data without zeros or with mixed sign, all positive equidistant grids and multipliers", "why_tests_cant": "For all lengths and multipliers, with a limit.", "anchors": ["CasimirRio/helper_functions.py:num_derivative"]}
{"id": "C83", "title": "worker.py from command line to result file: what is written, and when results are lost (defects)", "statement": "Every run of worker.py changes at most one file: the output name, or that name with \"1\" appended if it exists; an existing output file is never changed. A run without error writes header and numbers; the header tells the configured radii, distance (third argument or option d), materials, orders (the integer given, or automatic values), offset, nmax, quantity, evaluation and precision, deltaT and Tmax to four decimals. For free energy, entropy and force of two solid spheres a failing run writes nothing; for spheres side by side the numbers written are the Matsubara sums of C66, whatever analytic_n0 says. Defects: for a sphere inside a cavity with more than one pair of orders every such run fails with TypeError, as the analytic zero-frequency term is always demanded; a quantity that is no array leaves a file without numbers and destroys an existing file with \"1\" appended, and so does every third run of a job; jobs with different Tmin below 0.00005 write identical headers.", "quantifier": "all command lines, configurations, file systems", "why_tests_cant": "Composition of all parts of the program for all inputs.", "anchors": ["CasimirRio/worker.py:return_geometry", "CasimirRio/worker.py:do_calculation", "CasimirRio/worker.py:job_infos", "CasimirRio/worker.py:save_result"]}
{"id": "C84", "title": "the window of textbox_get_example.py draws the geometry to scale, but its label misleads (defect)", "statement": "For three numbers with positive radii retrieve_input shows two circles on one line, the larger with 50 pixels radius, all lengths in the same scale, the smaller beginning 10 pixels from the left; the discs are disjoint exactly if the distance exceeds the sum of the radii and one lies inside the other exactly if the distance is at most the difference of the radii. Wrong text or 0 as larger radius raise UnboundLocalError or ZeroDivisionError and leave the picture unchanged. Defects: a wrong first radius is reported as \"worked\"; of several wrong entries only the last is named; every press adds another label; the larger circle leaves the canvas of 300 pixels exactly for smaller radius + distance > 24/5 larger radius, and on the left for smaller radius + distance < 4/5 larger radius.", "quantifier": "all texts in the entries, all sequences of presses", "why_tests_cant": "For all inputs and states.", "anchors": ["CasimirRio/textbox_get_example.py:retrieve_input"]}
{"id": "C85", "title": "results with the analytic zero-frequency term: attraction between equal, repulsion between unequal sides", "statement": "Exterior geometry, two solid spheres (perfect, Drude, insulator, also magnetic) in an insulating medium. For spheres whose deviations from the medium have the same side, centres at least five times the sum of the radii apart: the determinants of the round trip for vanishing frequency, whose logarithms are what single_m_k0 returns, are positive, and the value returned for m lies between -(1/81)^(max(1,m)-1) and minus the static trace. finiteT.free_energy with the analytic zero-frequency term then returns, for every setting of the precision of the m sum, numbers between -T(2 + 4r/(1-r)), r = exp(-LT/70), and 0, negative for strict contrast and each temperature with at least one frequency. For one sphere denser and one thinner than the medium and any distance without overlap, all free energies are non-negative. worker.py writes exactly such numbers.", "quantifier": "all radii, distances, materials, lmax <= lssmax, precisions, temperature grids", "why_tests_cant": "Sign and size of complete calculations including limits for vanishing frequency, for all sizes.", "anchors": ["CasimirRio/geometry.py:SphereSphere.single_m_k0", "CasimirRio/thermodynamics.py:finiteT.free_energy", "CasimirRio/worker.py:do_calculation"]}
{"id": "C86", "title": "determinants converge for all spheres that do not overlap; between opposite sides the values rise to a finite limit", "statement": "Exterior geometry, two solid spheres, each denser or thinner than the medium, every m and frequency. In a medium with permeability 1 and for all spheres that do not overlap, det(1-M) converges for lmax, lssmax to infinity to a number w, and the difference is at most K (q^(lmax+1-max(1,m)) + q^(lssmax+1-max(1,m))), q = ((ra+rb)/L)^2, however strong the interaction is. If w is not zero, the program returns numbers for all large orders, and they converge to ln|w|; if w is zero, what it returns is below every bound or -inf. For one sphere denser and one thinner than the medium the program returns for all orders a number v >= 0, all v are below one limit w <= B, and w - v is at most B times the same sum of powers, B the explicit bound of C80 (no smallness assumed).", "quantifier": "all radii, distances, materials, media, m, wavenumbers, orders", "why_tests_cant": "Determinants of all sizes and their limit; needs exterior-power type estimates of determinants by traces, not a finite check.", "anchors": ["CasimirRio/geometry.py:SphereSphere.blockmatrices", "CasimirRio/scattering.py:scattering.mie", "CasimirRio/translation.py:translation.get_vl1l2"]}
{"id": "C87", "title": "free energies of spheres on opposite sides of the medium are positive and converge", "statement": "Exterior geometry, two solid spheres in a medium with permeability 1, one denser and one thinner than the medium at every frequency, numerical zero-frequency term, no early end of the m sum (precision <= 0). For every distance without overlap and each number of frequencies nmax all free energies are positive, rise with lmax and lssmax to a limit w(nmax), which rises with nmax and is at most the Matsubara sum of an explicit bound. For centres more than two sums of the radii apart they converge for lmax, lssmax and nmax to infinity to a limit 0 < w <= C T (1/2 + r/(1-r)), r = exp(-d T), with explicit C and d.", "quantifier": "all radii, distances, materials, temperature grids, orders, nmax", "why_tests_cant": "Complete calculations of all sizes and their limits.", "anchors": ["CasimirRio/thermodynamics.py:finiteT.free_energy", "CasimirRio/geometry.py:SphereSphere.mSumme", "CasimirRio/geometry.py:SphereSphere.blockmatrices"]}
{"id": "C88", "title": "free energies with the analytic zero-frequency term converge, and so do the files written by worker.py", "statement": "As C81 and C87, but for calculations with analytic_n0 = True, i.e. with the limit of the determinants for vanishing frequency in place of a small wavenumber; insulating medium with permeability 1, strict contrast at every frequency, no early end of the m sum (precision <= 0). Same side, centres at least five sums of the radii apart: the free energies fall with lmax, lssmax and nmax to a limit w with -T(2 + 4r/(1-r)) <= w < 0, r = exp(-LT/70). Opposite sides: non-negative, positive for temperatures with at least one frequency, they rise to a limit w(nmax) at most the Matsubara sum of an explicit bound (any distance without overlap), and for centres more than two sums of radii apart to one limit 0 < w <= C T(1/2 + r/(1-r)). The limits depend only on materials, radii, distance and temperatures: for every configuration file that describes such a calculation worker.py writes numbers on the same side of w and, for large orders, within eps of it.", "quantifier": "all radii, distances, materials, temperature grids, orders, nmax, configurations", "why_tests_cant": "Interchanges the limit of vanishing frequency with sums and orders; all sizes.", "anchors": ["CasimirRio/thermodynamics.py:finiteT.free_energy", "CasimirRio/geometry.py:SphereSphere.single_m_k0", "CasimirRio/worker.py:do_calculation"]}
{"id": "C89", "title": "plates and spheres with perfect reflection in the proximity force approximation: Casimir's energy, zeta(3), and the tests of test_pfa.py", "statement": "With a quadrature that returns integrals exactly, for two perfect conductors: the contribution of a frequency k in any medium of index n is -(1/pi) sum over j of (n k/(2 j^2 L) + 1/(4 j^3 L^2)) exp(-2 j L n k); T = 0 in vacuum gives a number between -pi^3/(360 L^3) and that plus 1e-20/(pi L^2); T = inf gives -zeta(3)/(8 pi L^2) up to n 1e-20/(2 pi L) above; for every T > 0 the sum with int(20/(T L)) frequencies differs from -pi^3/(360 L^3) by at most (T zeta(3)/(4 L^2) + 11 exp(-40)/L^3)/pi, with or without shielding; the force between spheres at T = 0, side by side or one in the other, is -pi^4 R/(180 gap^3), R = r1 r2/(r1 +- r2), up to 2e-20 R/gap^2. The three assertions of tests/test_pfa.py hold to seven places (zeta(4) = pi^4/90 and zeta(3) = 1.202056903 to 5e-9 are proved).", "quantifier": "all distances, radii, temperatures, media for the single frequency", "why_tests_cant": "Closed forms of improper double integrals and infinite sums; the reference values of the test suite.", "anchors": ["CasimirRio/PFA.py:SphereSpherePFA.planeplaneFreeEnergy", "CasimirRio/PFA.py:SphereSpherePFA.planeplane_e0", "CasimirRio/PFA.py:SphereSpherePFA.spheresphereForce", "CasimirRio/tests/test_pfa.py"]}
{"id": "C90", "title": "proximity force approximation for plates of any material: integrals exist, are bounded by those of perfect conductors, and have the right sign", "statement": "With a quadrature that returns integrals exactly, for half spaces of any material (perfect conductors or positive permittivity and permeability) in any medium: the integral over the wave vectors exists for every frequency, its modulus is at most that of perfect conductors in the same medium, it is <= 0 if the reflection coefficients of both plates have the same sign and >= 0 if they have opposite sign, strictly if something is reflected. Hence planeplaneFreeEnergy returns for every T > 0 and for T = inf a number of this sign, with modulus at most pi^3/(360 L^3) + T zeta(3)/(8 pi L^2) (T > 0, index at least 1) or zeta(3)/(8 pi L^2) (T = inf); for attracting plates it rises with the distance although the number of frequencies depends on it; the force between spheres exists with the same sign and 2 pi R times the bound. Equal plates attract; a plate thinner than a non-magnetic medium and one denser, or a conductor, repel.", "quantifier": "all materials, media, distances, temperatures, radii", "why_tests_cant": "Improper integrals of functions given by arbitrary materials.", "anchors": ["CasimirRio/PFA.py:SphereSpherePFA.planeplaneFreeEnergy", "CasimirRio/PFA.py:SphereSpherePFA.spheresphereForce", "CasimirRio/PFA.py:SphereSpherePFA.roundTrip"]}
{"id": "C91", "title": "the pressure between perfect reflectors is half of Casimir's pressure (defect)", "statement": "With a quadrature that returns integrals exactly, for two perfect conductors: the contribution of a frequency k in any medium of index n to the pressure is -(1/pi) sum over j of (x^2/(2jL) + 2x/(2jL)^2 + 2/(2jL)^3) exp(-2jLx), x = n k; the integrated energy contribution has derivative -2 times that with respect to L, so the pressure is half of minus the derivative also after integration. In vacuum, for every T > 0, both classes return the primed sum of these terms (int(20/(TL)) and int(100/(TL)) frequencies), which differs from -pi^3/(240 L^4) by at most (T zeta(3)/(4 L^3) + 222 exp(-40)/L^4)/pi; so for T L <= 1/2 the value lies strictly between a quarter and three quarters of Casimir's pressure -pi^3/(120 L^4).", "quantifier": "all distances and temperatures, media for the single frequency", "why_tests_cant": "Improper integrals and infinite sums in closed form; a derivative.", "anchors": ["CasimirRio/PFA.py:SphereSpherePFA.planeplanePressure", "CasimirRio/PFA.py:SphereSpherePFA.pressureRoundTrip", "CasimirRio/raw_PFA.py:SphereSpherePFA.planeplanePressure"]}
{"id": "C92", "title": "raw_PFA between perfect reflectors: agreement with PFA, Casimir's values, and a high-temperature energy that is half the potential of the force (defect)", "statement": "With a quadrature that returns integrals exactly, for two perfect conductors: at T = inf the free energy per area is -zeta(3)/(8 pi L^2) up to sqrt(1e-20 + (1e-20 n)^2)/(2 pi L) above, in any medium. In vacuum: at T = 0 it equals that of PFA.py and lies within 1e-20/(pi L^2) above -pi^3/(360 L^3); at any T > 0 the larger number of frequencies lowers the value of PFA.py by at most (21 T exp(-40)/L^2 + 11 exp(-40)/L^3)/pi. At T = 0 force and energy of two spheres, outside or inside each other, are -pi^4 R/(180 L^3) and -pi^4 R/(360 L^2) up to 2e-20 R/L^2 and 1e-20 R/L. At T = inf the force is -zeta(3) R/(4 L^2) up to 2e-10 R/L, which has the potential -zeta(3) R/(4 L), but the energy is -zeta(3) R/(8 L) up to 1e-10 R.", "quantifier": "all distances, temperatures and radii", "why_tests_cant": "Improper integrals and infinite sums in closed form; two implementations compared.", "anchors": ["CasimirRio/raw_PFA.py:SphereSpherePFA.planeplaneFreeEnergy", "CasimirRio/raw_PFA.py:SphereSpherePFA.planeplaneFreeEnergyHT", "CasimirRio/raw_PFA.py:SphereSpherePFA.spheresphereForce", "CasimirRio/raw_PFA.py:SphereSpherePFA.spheresphereEnergy"]}
{"id": "C93", "title": "dipole truncation: explicit round trip, large-distance limit of the computed free energy, and the analytic formulas of the functional test", "statement": "For lmax = lssmax = 1 outside each other: the translation coefficients between two dipoles are 3 exp(-x)(x^-2 + x^-3) for m = 0, -(3/2) exp(-x)(x^-1 + x^-2 + x^-3) and +-(3/2) exp(-x)(x^-1 + x^-2) for |m| = 1, x = n k L; the Mie coefficients of order one divided by (n k r)^3 tend to 2/3 of the electric and magnetic polarizability (1 and -1/2 for a perfect reflector, Clausius-Mossotti for insulators, 1 for Drude metals); the determinant of 1 - round trip is an explicit polynomial in these. At frequency y/L the logarithm of the determinant divided by (r1 r2/L^2)^3 tends to -4 s (1+x)^2 exp(-2x) (m = 0) and -(s (1+x+x^2)^2 - t x^2 (1+x)^2) exp(-2x) (m = 1), and at zero frequency to -4 s and -s, with s = pE pE' + pM pM', t = pE pM' + pM pE'. So finiteT.free_energy with deltaT = nu/L, Tmax = tau/L and any nmax returns values that, times L/(r1 r2/L^2)^3, tend to minus the truncated primed sums of these terms; the infinite sums have a closed form in nu/sinh nu and cosh nu, which for perfect reflectors in vacuum is the formula expected by tests/test_functional.py; its derivative is the entropy expected there; it tends to (23 s - 7 t)/2 at low and 3 s nu at high temperature (143/8 and 15/4 for perfect reflectors).", "quantifier": "all pairs of perfect reflectors, insulators and Drude metals in insulating media; all temperature steps; both the code's and exact Bessel functions", "why_tests_cant": "A limit in the distance of a complete calculation; infinite sums in closed form.", "anchors": ["CasimirRio/tests/test_functional.py:DipoleLimit.test_free_energy", "CasimirRio/translation.py:translation.get_vl1l2", "CasimirRio/scattering.py:scattering.mie", "CasimirRio/geometry.py:SphereSphere.mSumme", "CasimirRio/thermodynamics.py:finiteT.free_energy"]}
{"id": "C94", "title": "proximity force approximation at zero temperature for plates of any material, and the limit of vanishing temperature", "statement": "With a quadrature that returns integrals exactly, for half spaces of any material with permittivity and permeability continuous in the frequency (or perfect conductors) in a medium of index at least 1: planeplaneFreeEnergy at T = 0 of PFA.py and of raw_PFA.py return the same number v, shielded or not; it is the integral over frequencies from 1e-20 of the contributions of the single frequencies, which are continuous in the frequency; |v| <= pi^3/(360 L^3), the value of perfect conductors; v <= 0 for reflection coefficients of the same sign and >= 0 for opposite sign, strictly if something is reflected at any frequency above 1e-20; |v| does not grow with the distance; the force between spheres exists, has this sign and is at most pi^4 R/(180 gap^3). For T to 0 the energies at T > 0 come to within (11 exp(-40)/L^3 + 3e-20 zeta(3)/(4 L^2))/pi of that at T = 0 (the parts of the frequency axis one of the two computations leaves out). All materials of materials.py with non-negative parameters have continuous response.", "quantifier": "all materials, media with index at least 1, distances, radii", "why_tests_cant": "Iterated improper integrals of functions given by arbitrary materials; a limit.", "anchors": ["CasimirRio/PFA.py:SphereSpherePFA.planeplane_e0", "CasimirRio/PFA.py:SphereSpherePFA.planeplaneFreeEnergy", "CasimirRio/PFA.py:SphereSpherePFA.spheresphereForce", "CasimirRio/raw_PFA.py:SphereSpherePFA.planeplaneFreeEnergy"]}
{"id": "C95", "title": "the analytic zero-frequency term is half the limit of the terms at small frequencies, if both m loops stop at the same m", "statement": "Exterior geometry, two solid spheres (perfect, Drude, insulator, also magnetic) in an insulating medium of static permeability 1, as in test_evaluation_n0_1 of tests/test_functional.py: with positive static determinants d_m, F_alle([0]) returns half a partial sum of ln d_0 + 2 ln d_1 + ..., and for all small k F_alle([k]) returns a number that tends to a partial sum of the same series, provided that no relative change of its partial sums equals precision/10 and none of them vanishes. F_alle([0])/F_alle([k]) tends to 1/2 if at each m up to the end both or neither of |new/old - 1| (used at k > 0) and |old/new - 1| (used at k = 0) are below precision/10; for terms of one sign these differ exactly for precision/10 <= |new/old - 1| < (precision/10)/(1 - precision/10). Without early end (precision <= 0) no such condition is needed: for strict contrast of the same side, at least five sums of radii apart, or of opposite sides at any distance, F_alle([k]) is negative or positive for all k > 0 and tends to twice F_alle([0]).", "quantifier": "all radii, distances, materials, orders, precisions; the code's and exact Bessel functions", "why_tests_cant": "A limit of complete calculations including the stopping rules of two different loops.", "anchors": ["CasimirRio/tests/test_functional.py", "CasimirRio/thermodynamics.py:finiteT.F_alle", "CasimirRio/geometry.py:SphereSphere.mSumme", "CasimirRio/geometry.py:SphereSphere.mSumme_k0"]}
{"id": "C96", "title": "Mie coefficients: magnetic response at small frequencies, vanishing cores, strong conductors", "statement": "For all orders l (the limits probed by tests/test_mie.py at l = 1). Non-magnetic sphere (insulator or damped metal) in a non-magnetic insulator: the TE coefficient is g(k) (kr)^2 (eps1(k) - eps2(k)) (n2 k r)^(2l+1), where g tends to (-1)^l / ((2l+1) ((2l-1)!!)^2 (2l+1)(2l+3)) for k to 0; so for two insulators T/k^(2l+3) tends to (-1)^l (eps1 - eps2) n2^(2l+1) r^(2l+3) over that number (45 for l = 1, as in test_mie.py). Coated spheres: for any core (also perfectly conducting) the scaled coefficients tend to those of the solid sphere of the coating as the core radius tends to 0, and the scaling is the same for each core radius. Strong conductors: for fixed permeability and every bound B there is E such that all materials with permittivity >= E at the wavenumber have TE and TM coefficients within B of those of the perfect conductor, for spheres and for cavities. The coefficients of a perfectly conducting sphere and cavity of the same radius are inverse to each other.", "quantifier": "all orders, radii, materials, media, wavenumbers", "why_tests_cant": "Limits for all orders; the tests check l = 1 at single small arguments.", "anchors": ["CasimirRio/scattering.py:scattering.mie", "CasimirRio/scattering.py:scattering.mie_internal", "CasimirRio/scattering.py:scattering.miePEC", "CasimirRio/scattering.py:scattering.mie_coated", "CasimirRio/tests/test_mie.py"]}
{"id": "C97", "title": "at large distances only dipoles count: the limit of C93 for all largest orders", "statement": "Exterior geometry, two solid spheres (perfect, Drude, insulator) in an insulating medium of static permeability 1, any 1 <= lmax <= lssmax. At frequency y/L the determinants of 1 - round trip for all m <= lmax are positive for all large L, and their logarithm divided by (r1 r2/L^2)^3 tends to the dipole value of C93 for m = 0 and 1 and to 0 for m >= 2; at zero frequency to -4 s, -s and 0. Hence L times finiteT.free_energy with the analytic zero-frequency term divided by (r1 r2/L^2)^3 tends to the same Matsubara sum of dipole terms, whatever the largest orders and the precision of the m loop, and for perfect reflectors in vacuum to the analytic formula of tests/test_functional.py, for all largest orders.", "quantifier": "all radii, materials, media, temperature grids, orders lmax <= lssmax, precisions", "why_tests_cant": "Limit of complete calculations for every matrix size; a numerical test uses one distance and one truncation.", "anchors": ["CasimirRio/thermodynamics.py:finiteT.free_energy", "CasimirRio/geometry.py:SphereSphere.single_m", "CasimirRio/geometry.py:SphereSphere.mSumme", "CasimirRio/tests/test_functional.py:DipoleLimit.test_free_energy"]}
{"id": "C98", "title": "stratified spheres: signs, comparison, attraction; an enclosing stratified wall is treated as a sphere seen from outside (defect)", "statement": "Spheres with any number of shells up to the medium (radii in ascending order, core possibly a perfect reflector), all orders. If no material has smaller permittivity or larger permeability than the medium, the Mie coefficients have the signs of a denser solid sphere, if none has larger permittivity or smaller permeability the opposite ones. Replacing the materials by others of at least the same permittivity and at most the same permeability (or the core by a perfect reflector) does not decrease the coefficients; whatever the shells are made of, those of a perfect reflector of the outermost radius are at least as large. In complete log-determinant evaluations, exterior geometry, solid or stratified bodies: on the same side of the medium they attract (all traces of powers of the round trip are non-negative; the result lies between ln(1 - trace) and -trace), on different sides they repel; outdoing either body strengthens the attraction by at least the difference of the traces; at least five sums of outer radii apart the result exists and lies between -2b and -trace, with b as in C81. In the enclosed geometry the wall should reflect waves from inside: a solid perfectly reflecting wall does, but a stratified wall with the same surface is given the exterior coefficients (defect).", "quantifier": "all numbers of shells, materials, radii, media, orders, wavenumbers", "why_tests_cant": "Unbounded number of shells, continuum of materials; complete calculations of all sizes.", "anchors": ["CasimirRio/stratified_sphere_scattering.py:StratifiedMieScattering.mie_stratified", "CasimirRio/scattering.py:coated_miescattering.mie_coated", "CasimirRio/geometry.py:SphereSphere.blockmatrices", "CasimirRio/geometry.py:SphereSphere.__init__"]}
{"id": "C99", "title": "free energies with stratified spheres", "statement": "Complete calculations of finiteT.free_energy without analytic zero-frequency term for two solid or stratified bodies outside of each other (any number of shells up to the medium, radii in ascending order, core possibly a perfect reflector). For arrays of positive wavenumbers mSumme gives, from any object with matching attributes, the sums over m of the log-determinants of the single wavenumbers, with one common number of terms. If no determinant vanishes, free_energy returns for T = i deltaT the value T (g0/2 + sum_j g(j T)), with the sum at the wavenumber 1e-10 as g0 and the term counts of the slices of 50 frequencies. If the bodies lie on different sides of the medium at all frequencies, all free energies exist and are non-negative, at every distance. If both are denser than the medium and at least five sums of outer radii apart, all free energies exist, are not positive, and are not below those which the code computes for two perfect reflectors of the outer radii (precision <= 0), and these not below -T (2 + 4 r/(1-r)), r = exp(-L sqrt(e0) T/70).", "quantifier": "all numbers of shells, materials, radii, media, distances, orders, temperatures and numbers of frequencies", "why_tests_cant": "Unbounded number of shells and frequencies, continuum of materials; complete calculations of all sizes.", "anchors": ["CasimirRio/finiteT.py:finiteT.free_energy", "CasimirRio/geometry.py:SphereSphere.mSumme", "CasimirRio/geometry.py:SphereSphere.blockmatrices", "CasimirRio/stratified_sphere_scattering.py:StratifiedMieScattering.mie_stratified"]}
{"id": "C100", "title": "results with stratified spheres converge geometrically when the largest orders grow", "statement": "Exterior geometry, two solid or stratified bodies, both denser than the medium at the frequency considered, every m. The coefficients of an order do not depend on the largest order. The trace of the round-trip matrix lies between 0 and an explicit number B(m,k,ra,rb,L) for all lmax and lssmax, where ra and rb are the radii of the outermost interfaces. If lmax and lssmax grow, the traces of all its powers converge from below; in a medium with permeability 1 this holds for all bodies that do not overlap, and the remainder is at most a constant times ((ra+rb)/L)^(lmax+1-max(1,m)) plus the same for lssmax. If B < 1, the program returns a number v for every pair (lmax, lssmax), all v lie above one limit w between ln(1-B) and 0, and v - w is at most 2B/(1-B) times the square root of the sum of q^(lmax+1-max(1,m)) and q^(lssmax+1-max(1,m)). For all bodies far enough apart B < 1, so the results converge. The interior structure does not enter the rate.", "quantifier": "all numbers of shells, materials, radii, distances, media, wavenumbers, m, all lmax and lssmax", "why_tests_cant": "A limit of determinants of unbounded size for an unbounded number of shells, with an explicit rate.", "anchors": ["CasimirRio/geometry.py:SphereSphere.blockmatrices", "CasimirRio/stratified_sphere_scattering.py:StratifiedMieScattering.mie_stratified", "CasimirRio/scattering.py:scattering.mie", "CasimirRio/translation.py:translation.get_vl1l2"]}
{"id": "C101", "title": "free energies with stratified spheres converge when the largest orders and the number of frequencies grow", "statement": "Exterior geometry, two solid or stratified bodies, none of whose materials is less dense than the non-magnetic medium, each with a reflecting core or with a core or shell of positive thickness whose permittivity exceeds that of the medium. Then no TE coefficient vanishes: times (-1)^l each is positive, for every order l. For centres at least five times the sum of the outermost radii apart the log-determinants returned are negative for every m, and finiteT.free_energy with the numeric zero-frequency term and without early end of the m sum (precision <= 0) returns for every temperature T of the grid a negative number that falls to a limit w(T) < 0 when lmax, lssmax and nmax grow; all results lie above w(T). The contribution of the frequencies beyond nmax is at most 4 T r^(nmax/i + 1)/(1 - r), T = i deltaT, r = exp(-L sqrt(e0) T/70), with e0 a lower bound of the permittivity of the medium.", "quantifier": "all shells, materials, radii, distances with L >= 5(ra+rb), lmax <= lssmax, nmax, temperature grids", "why_tests_cant": "Convergence of a complete calculation in all its cut-offs, for bodies with an unbounded number of shells.", "anchors": ["CasimirRio/thermodynamics.py:finiteT.free_energy", "CasimirRio/geometry.py:SphereSphere.mSumme", "CasimirRio/stratified_sphere_scattering.py:StratifiedMieScattering.mie_stratified", "CasimirRio/scattering.py:scattering.mie"]}
{"id": "C102", "title": "solid and stratified spheres attract each other less at larger distances", "statement": "Exterior geometry, two solid or stratified bodies (any number of shells up to the medium), both denser or both thinner than the medium, every frequency, m and all sizes: all traces of powers of the round-trip matrix are smaller or equal at a larger distance; if the trace at the smaller distance L is below 1, the program returns numbers v at L and v' at L' > L with v + (tr M(L) - tr M(L')) <= v' <= -tr M(L'). For denser bodies with a reflecting core or a layer of larger permittivity than the medium everything is strict: traces are positive, v < v' < 0. For centres at least five sums of the outermost radii apart in a non-magnetic medium, free_energy with the numeric zero-frequency term and without early end of the m sum (precision <= 0) gives for every temperature of the grid a negative number that is strictly larger at the larger distance.", "quantifier": "all shells, materials, radii, distances, lmax <= lssmax, nmax, temperature grids", "why_tests_cant": "The sign of the force for layered bodies: a comparison of two complete calculations.", "anchors": ["CasimirRio/thermodynamics.py:finiteT.free_energy", "CasimirRio/geometry.py:SphereSphere.blockmatrices", "CasimirRio/stratified_sphere_scattering.py:StratifiedMieScattering.mie_stratified", "CasimirRio/translation.py:translation.get_vl1l2"]}
{"id": "C103", "title": "coefficients of stratified spheres are bounded by the outermost radius alone; convergence also for bodies less dense than the medium", "statement": "Every solid or stratified sphere (materials denser or less dense than the medium, in any order): the modulus of its TE and TM coefficients of order l is at most a number that depends only on l and on the size parameter of the outermost radius, and for stratified spheres the coefficients lie between the TE and the TM coefficient of a reflector of that radius. Exterior geometry, two bodies both denser or both less dense than the medium at the frequency considered: the trace of the round-trip matrix lies between 0 and an explicit number B(m,k,ra,rb,L) for all lmax and lssmax, the traces of all its powers converge from below, in a medium with permeability 1 for all bodies that do not overlap with a remainder of at most a constant times ((ra+rb)/L)^(lmax+1-max(1,m)) plus the same for lssmax. If B < 1, which holds for all bodies far enough apart, the numbers returned by the program converge to a limit between ln(1-B) and 0.", "quantifier": "all numbers of shells, materials, radii, distances, media, wavenumbers, m, all lmax and lssmax", "why_tests_cant": "Removes the restriction of C100 to bodies denser than the medium; the bound of the coefficients holds without any order of the materials.", "anchors": ["CasimirRio/geometry.py:SphereSphere.blockmatrices", "CasimirRio/stratified_sphere_scattering.py:StratifiedMieScattering.mie_stratified", "CasimirRio/scattering.py:scattering.mie", "CasimirRio/translation.py:translation.get_vl1l2"]}
{"id": "C104", "title": "determinants converge for all solid and stratified spheres that do not overlap; between opposite sides the values rise to a finite limit", "statement": "Exterior geometry, two solid or stratified spheres (any number of shells), each either denser or less dense than the medium at the frequency considered, every m >= 0: det(1-M) converges when lmax and lssmax grow; the remainder is at most B exp(3B) (q^(lmax+1-max(1,m)) + q^(lssmax+1-max(1,m))), with explicit B(m,k,ra,rb,L) and, in a medium with permeability 1, q = ((ra+rb)/L)^2 for all bodies that do not overlap, where ra and rb are the outermost radii. If the limit is not zero, the numbers returned by the program converge to its logarithm, otherwise they fall below every bound. For one denser and one less dense body the program returns numbers between 0 and a limit w <= B that they approach from below, at most B (q^(lmax+1-max(1,m)) + q^(lssmax+1-max(1,m))) below it.", "quantifier": "all numbers of shells, materials, radii, distances, media, wavenumbers, m, all lmax and lssmax", "why_tests_cant": "A limit of determinants of unbounded size for an unbounded number of shells, without the requirement B < 1 of C100 and C103, and for repulsion.", "anchors": ["CasimirRio/geometry.py:SphereSphere.blockmatrices", "CasimirRio/stratified_sphere_scattering.py:StratifiedMieScattering.mie_stratified", "CasimirRio/scattering.py:scattering.mie", "CasimirRio/translation.py:translation.get_vl1l2"]}
{"id": "C105", "title": "free energies of solid and stratified spheres on opposite sides of the medium are positive and converge", "statement": "Exterior geometry, non-magnetic medium, one body denser and one less dense than the medium, each solid or stratified with any number of shells; each with a reflecting core, or with a core or shell of positive thickness whose permittivity differs from that of the medium (solid spheres: whose product of permittivity and permeability does). No TE coefficient vanishes: times s (-1)^l each is positive, s = 1 for the denser and -1 for the less dense body. For all bodies that do not overlap, free_energy with the numeric zero-frequency term and without early end of the m sum (precision <= 0) returns positive numbers; for each nmax they rise with lmax and lssmax to a finite limit, which grows with nmax and is bounded by an explicit Matsubara sum. For centres more than two sums of the outermost radii apart they rise to a limit w(T) when lmax, lssmax and nmax grow, with w(T) at most C T (1/2 + r/(1-r)), r = exp(-d L sqrt(e0) T), with explicit C and d that depend on ra/L and rb/L, and e0 a lower bound of the permittivity of the medium; with the orders fixed, calculations with nmax and nmax' >= nmax frequencies differ at the temperature T = (i+1) deltaT by at least 0 and at most C T r^(nmax // (i+1) + 1) / (1-r).", "quantifier": "all shells, materials, radii, distances, lmax <= lssmax, nmax, temperature grids", "why_tests_cant": "Repulsion of layered bodies as a statement on complete calculations, in the limit of all cut-offs.", "anchors": ["CasimirRio/thermodynamics.py:finiteT.free_energy", "CasimirRio/geometry.py:SphereSphere.mSumme", "CasimirRio/stratified_sphere_scattering.py:StratifiedMieScattering.mie_stratified", "CasimirRio/scattering.py:scattering.mie"]}
{"id": "C106", "title": "solid and stratified spheres on the same side of the medium have negative free energies that converge and grow with the distance", "statement": "Exterior geometry, non-magnetic medium, two bodies both denser (s = 1) or both less dense (s = -1) than the medium, each solid or stratified with any number of shells and each scattering (as in C105), centres at least five sums of the outermost radii apart. free_energy with the numeric zero-frequency term and without early end of the m sum (precision <= 0) returns negative numbers which decrease to a negative limit when lmax, lssmax and nmax grow, at temperatures of any grid. With the cut-offs fixed, every free energy at a larger distance L' > L lies strictly between that at L and 0. Calculations with nmax and nmax' >= nmax frequencies differ at T = (i+1) deltaT by at most 4 T r^(nmax // (i+1) + 1) / (1-r), r = exp(-L sqrt(e0) T / 70), the one with more frequencies not being higher. For each m and wavenumber ln det is negative. For each m and wavenumber and any distances 0 < L < L' the trace of the round-trip matrix is positive and strictly smaller at L'; if it is below 1 at L, ln det at L is strictly below ln det at L', which is negative.", "quantifier": "all shells, materials, radii, distances, lmax <= lssmax, nmax, temperature grids", "why_tests_cant": "C101 and C102 hold for bubbles and other bodies less dense than the medium too: they attract each other.", "anchors": ["CasimirRio/thermodynamics.py:finiteT.free_energy", "CasimirRio/geometry.py:SphereSphere.mSumme", "CasimirRio/stratified_sphere_scattering.py:StratifiedMieScattering.mie_stratified", "CasimirRio/scattering.py:scattering.mie"]}
