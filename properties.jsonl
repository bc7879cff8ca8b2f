{"id": "C01", "title": "Monomial ordering is a strict total order", "statement": "Comparing two exponent vectors of the same positive length with operator< is a strict total order (irreflexive, transitive, and exactly one of a<b, a==b, b<a holds), namely the lexicographic one, so every std::map keyed by monomials finds exactly the entries that were stored; vectors of different lengths are reported as an error and vectors of length zero are outside the contract.", "quantifier": "all exponent vectors (arbitrary integers) of every length", "why_tests_cant": "The order axioms quantify over all triples of vectors; a map corrupted by an order violation only shows for particular insertion histories.", "anchors": ["vec_int64.h: operator<, vec_int64_t_less"]}
{"id": "C02", "title": "Monomial enumeration is complete, duplicate free and sorted", "statement": "For every degree d>=0 and number of variables n>=1 (with the count representable) tuple_list_generator returns exactly the n-tuples of non-negative integers of sum d, each once, in strictly increasing monomial order, their number is binomial(d+n-1,n-1), the internal count assertion holds, and no write goes past the end of the result.", "quantifier": "all degrees d >= 0 and all n >= 1", "why_tests_cant": "Tests enumerate a few small (d,n); every coordinate system in the package rests on this for all of them.", "anchors": ["tools/tuple_list_generator.cc: tuple_list_generator"]}
{"id": "C03", "title": "Reverse dictionary inverts the enumeration", "statement": "In a de Rham object the reverse lookup of every monomial of degree l gives its position in the list of degree l, every vector of non-negative integers of the right length and sum is present (so operator[] never silently inserts), and nothing else is present.", "quantifier": "all n, d and all degrees l in 0..(n+1)d", "why_tests_cant": "A missing key makes operator[] return coordinate 0 silently; only a proof over all monomials excludes it.", "anchors": ["dr/init.cc: tuple_list, tuple_dict", "dr_nd/dr_nd.cc: constructors", "dr/isSmooth.cc"]}
{"id": "C04", "title": "Binomial coefficients are exact when representable", "statement": "binomial(n,k) with 0<=k<=n returns the binomial coefficient n!/(k!(n-k)!) whenever it is smaller than 2^63, and binomial_ZZ returns it for all 0<=k<=n; the division performed is exact.", "quantifier": "all integers 0 <= k <= n", "why_tests_cant": "Exactness of num/den has to hold for infinitely many pairs.", "anchors": ["tools/binomial.cc: binomial", "tools/binomial_ZZ.cc: binomial_ZZ"]}
{"id": "C05", "title": "Binomial never returns a wrong value silently", "statement": "If binomial(n,k) passes its own size assertion then the value it returns is the binomial coefficient. (Expected by callers that index and allocate with it; false of the code for coefficients in [2^63,2^64).)", "quantifier": "all integers 0 <= k <= n", "why_tests_cant": "The failing region starts at n = 67; tests only use small n.", "anchors": ["tools/binomial.cc: binomial (NumBytes assertion)"]}
{"id": "C06", "title": "valuation_of_factorial is Legendre's formula", "statement": "For every prime p and n>=0 the value returned is the exact exponent of p in n!.", "quantifier": "all primes p and all n >= 0", "why_tests_cant": "The value decides the working precision for all p and N; tests sample finitely many.", "anchors": ["tools/valuation_of_factorial.cc: valuation_of_factorial"]}
{"id": "C07", "title": "factorial_p_adic splits a factorial into unit and power of p", "statement": "For prime p, start>=1 and any modulus q, factorial_p_adic returns v and u with n!/(start-1)! = p^v * U, p not dividing U, u = U mod q; the internal consistency assertion (start = 1) never fires and the loops terminate.", "quantifier": "all primes p, all n, all start >= 1, all moduli", "why_tests_cant": "The assertion must hold for every n and p.", "anchors": ["tools/factorial_p_adic.cc: factorial_p_adic", "tools.h: factorial"]}
{"id": "C08", "title": "tweak lowers a monomial by exactly r, deterministically and monotonically", "statement": "tweak(v,r) for a non-negative vector v and r>=0 is componentwise between 0 and v, its sum is sum(v) minus min(r, sum(v)), it removes the r units from the lowest-index positive entries, and tweak(a+b,r) = a+tweak(b,r) whenever supp(a) is contained in supp of what is left. diff(v,i) is v-e_i exactly when v_i>0.", "quantifier": "all vectors and all r >= 0", "why_tests_cant": "The reduction paths rely on it for unboundedly large monomials p*u.", "anchors": ["vec_int64/tweak.cc: tweak", "vec_int64/tweak_step.cc: tweak_step", "vec_int64/diff.cc: diff"]}
{"id": "C09", "title": "Linear change of variables substitutes correctly", "statement": "change_of_variables(f,M) is the polynomial f(Mx): its value at every point x equals the value of f at Mx, it keeps the total degree of each term, and the result has one entry per monomial.", "quantifier": "all sparse polynomials f with non-negative exponents, all square matrices M, all points, over Z/q for every q", "why_tests_cant": "A polynomial identity over all inputs; tests compare a few random instances.", "anchors": ["tools.h: change_of_variables"]}
{"id": "C10", "title": "Expansion of a shifted monomial is correct", "statement": "change_of_variables_monomial(u,v) lists the coefficients of (x0 + x v0)^u0 ... (xn + x vn)^un in x0..xn,x: evaluating the returned map at any point gives the product.", "quantifier": "all exponent vectors u >= 0, all integer directions v, all points (absence of 64-bit overflow assumed and stated)", "why_tests_cant": "Polynomial identity in unboundedly many variables and degrees.", "anchors": ["tools/change_of_variables_monomial.cc: change_of_variables_monomial"]}
{"id": "C11", "title": "Integer conversion NTL <-> GMP/FLINT preserves the value", "statement": "Converting an integer from NTL to GMP and back (and in the other direction) yields the same integer, including zero and negative numbers of any size.", "quantifier": "all integers", "why_tests_cant": "Unbounded sizes; the byte length computation has boundary cases at every power of 256.", "anchors": ["conv/conv.cc: conv(mpz_t,ZZ), conv(ZZ,mpz_t)"]}
{"id": "C12", "title": "Flat GMP matrix routines compute the matrix operation", "statement": "The mpz_t array routines (matrix product, scalar multiple, matrix times vector, Mat<ZZ> <-> array) compute the mathematical operation on a row-major array of rows*cols entries without touching other memory. (Proved for square matrices, refuted for non-square ones: the row stride used is the number of rows.)", "quantifier": "all shapes and all entries", "why_tests_cant": "Only non-square shapes expose the stride error, for every shape; tests use square ones.", "anchors": ["matrix/mul.cc: mul(mpz_t*...)", "matrix/mul_tranpose.cc: mul_transpose(mpz_t*...)", "conv/conv.cc: conv(mpz_t*,Mat), conv(Mat,mpz_t*)"]}
{"id": "C13", "title": "charpoly is the characteristic polynomial", "statement": "For every square integer matrix of size n>=1, charpoly returns the coefficients of det(xI-M) and the exact-division assertion never fires.", "quantifier": "all n >= 1 and all integer n x n matrices", "why_tests_cant": "Divisibility of the Newton sums by k has to hold for all matrices.", "anchors": ["matrix/charpoly.cc: charpoly", "matrix/trace.cc: trace"]}
{"id": "C14", "title": "charpoly_frob recovers the exact integer polynomial", "statement": "If an integer polynomial P is monic of the right degree, satisfies the functional equation for the given dimension with sign e, its root power sums satisfy the Weil bound, its coefficients agree with charpoly(M) modulo the declared powers of the odd prime p, and the declared precisions pass the precision assertion, then charpoly_frob returns exactly P (provided the sign is +1 or is detectable from the coefficients) and none of its assertions fires.", "quantifier": "all matrices M, all odd primes p, all precision vectors, dimensions and integer polynomials P meeting the stated hypotheses", "why_tests_cant": "A correctness statement about p-adic approximation for unboundedly many primes, precisions and degrees.", "anchors": ["matrix/charpoly_frob.cc: charpoly_frob"]}
{"id": "C15", "title": "charpoly_frob determines the sign of the functional equation", "statement": "charpoly_frob returns the right sign of the functional equation in even dimension. (Refuted: when every middle coefficient vanishes modulo its precision the sign silently defaults to +1.)", "quantifier": "all inputs satisfying the hypotheses of C14 without the detectability condition", "why_tests_cant": "The failing inputs are polynomials such as T^2-p^2 that random tests never hit.", "anchors": ["matrix/charpoly_frob.cc: sign detection loop"]}
{"id": "C16", "title": "Built-in precision tables are consistent for every prime", "statement": "For every supported (n,d) and every p in the bracket of a table row, the number of entries of N is n, the number of charpoly precisions is dim H + 1, and after the symmetry step the precision assertion of charpoly_frob holds for every k (so the lift is unambiguous for every prime, however large). For 1 <= i < degree the number of terms N_k is large enough for charpoly_prec[i]: if a column of pole order k + 1 is divisible by p^(n-1-k) and known modulo p^N_k (modulo p^(n-1-k) if N_k = 0), then an error in one column changes every minor of degree - i columns by a multiple of p^charpoly_prec[i]. For i = 0 this fails for plane cubics with p >= 17, where the table asks for three digits and the matrix has one.", "quantifier": "all primes p >= 3 (unbounded) and all supported (n,d)", "why_tests_cant": "The last bracket of each table covers infinitely many primes.", "anchors": ["tools/default_args.cc: default_args", "matrix/charpoly_frob.cc: precision assertion"]}
{"id": "C17", "title": "Linear solver over F_p: complement basis and right inverse", "statement": "solve_system over F_p returns B strictly increasing, of size rows-rank, such that the columns of T together with the unit vectors e_b (b in B) span everything, and U with (T|J)U = identity; zero columns give B = all rows and U = identity; no out-of-bounds access in the pivot scans.", "quantifier": "all primes p and all matrices T of every shape (LU/gauss/inverse supplied by FLINT/NTL, assumed to meet their documented specification)", "why_tests_cant": "Correctness over every rank profile.", "anchors": ["solve_system/solve_system.cc: solve_system_zz_p_flint, solve_system_zz_p_NTL, solve_system_zz_p"]}
{"id": "C18", "title": "p-adic solver lifts to the full precision", "statement": "solve_system_padic returns the same B and a U with (T|J)U = identity modulo p^precision, in each of its three implementations (word-size, multi-precision, NTL), for every precision >= 1.", "quantifier": "all primes p, all precisions, all matrices T", "why_tests_cant": "The Newton doubling has to reach every precision, including those that are not powers of two.", "anchors": ["solve_system/solve_system.cc: solve_system_padic, solve_system_padic_flint, solve_system_padic_NTL"]}
{"id": "C19", "title": "The relation matrix represents (H_i) -> sum H_i df/dx_i", "statement": "Column (i,s) of the matrix built for degree l holds the coefficients of x^s * df/dx_i (and, in the non-degenerate variant, x^s * x_i * df/dx_i), and every other entry is zero; distinct terms of f never overwrite each other.", "quantifier": "all homogeneous f, all degrees l", "why_tests_cant": "The matrix is filled by assignment through dictionary lookups; collisions or missed keys only show for particular supports.", "anchors": ["dr/matrix_J.cc: matrix_J", "dr_nd/dr_nd.cc: matrix_ND"]}
{"id": "C20", "title": "A single reduction step preserves the cohomology class", "statement": "Reducing a vector from V_{u+v} to V_u (matrix form or vector form, over Z/q or over Z) changes the differential form only by exact forms: every linear functional that kills the relations [pole m+1: H df/dx_i] = [pole m: dH/dx_i] takes the same value modulo p^precision before and after, for every u,v with sum(v)=d and v_i>0 whenever u_i>0.", "quantifier": "all smooth f, all directions v, all u, all vectors G, all such functionals", "why_tests_cant": "Statement about all monomials u (the matrices are polynomial in u) and all cohomology functionals.", "anchors": ["dr/compute_reduction_matrix_J.cc: compute_reduction_matrix_J", "dr/get_reduction_matrix_J.cc", "dr/get_reduction_matrix_J_ZZ.cc", "dr/reduce_vector_J.cc", "dr/reduce_vector_J_ZZ.cc"]}
{"id": "C21", "title": "Multi-step reduction equals repeated single steps", "statement": "Reducing k steps at once along a direction (reduce_vector_J_poly and its integer variant) gives, modulo p^precision, the same vector as k successive single steps from u+kv down to u.", "quantifier": "all u, v, k >= 0, G", "why_tests_cant": "k is of the size of p and unbounded.", "anchors": ["dr/reduce_vector_J_poly.cc", "dr/reduce_vector_J_poly_ZZ.cc"]}
{"id": "C22", "title": "Inclusion and final reduction matrices preserve the class", "statement": "For sum(u)=n the inclusion matrix, and for every pole order k<=n the final reduction matrix, express the differential in the cohomology basis: every functional killing the relations takes the same value on x^u G (resp. a form of pole order k) and on the returned combination of basis elements.", "quantifier": "all smooth f, all u, all pole orders 1..n, all forms, all functionals", "why_tests_cant": "Recursion over pole orders and all monomials.", "anchors": ["dr/compute_inclusion_matrix_J.cc", "dr/get_inclusion_matrix_J.cc", "dr/compute_final_reduction_matrix_J.cc", "dr/get_final_reduction_matrix_J.cc"]}
{"id": "C23", "title": "monomial_to_basis_J returns the class of any monomial form", "statement": "For every monomial x^u with positive exponents and degree divisible by d, monomial_to_basis_J terminates, none of its assertions fires, and the returned coordinates represent the class of (m-1)! x^u Omega/(x0..xn f^m).", "quantifier": "all admissible u of every degree", "why_tests_cant": "Pole orders are unbounded; termination of the direction search has to hold for every monomial.", "anchors": ["dr/monomial_to_basis_J.cc: monomial_to_basis_J"]}
{"id": "C24", "title": "Reduction directions always exist and keep the path inside the cone", "statement": "In every Frobenius routine and in monomial_to_basis the search for a direction v terminates with sum(v)=d, 0<=v<=w and v_i>0 exactly where required; the successive tweaked monomials satisfy the preconditions of the reduction step (non-negative difference of sum d, positive wherever the destination is) and end at sum n (resp. at the expected multiple).", "quantifier": "all primes p, all monomials, all pole orders", "why_tests_cant": "A while loop that can spin forever for one monomial among unboundedly many.", "anchors": ["hypersurface/frob_J_ZZ.cc: direction choice, loop 0/1/2", "dr/monomial_to_basis_J.cc", "dr_nd/dr_nd.cc: monomial_to_basis_ND", "hypersurface_nd/hypersurface_nd.cc: direction choice"]}
{"id": "C25", "title": "Factorial bookkeeping of the Frobenius routine is exact", "statement": "In frob_J_ZZ the running factor equals (p(m+N-1)-1)!/(pe-1)! at the start of every step and (p(m+N-1)-1)! at the end, so both runtime assertions about it hold for every prime (also p <= n); likewise in the non-degenerate routines.", "quantifier": "all primes p, all n, m, N >= 1", "why_tests_cant": "Must hold for all parameter combinations; the sibling routine gets it wrong only for p <= n.", "anchors": ["hypersurface/frob_J_ZZ.cc", "hypersurface_nd/hypersurface_nd.cc: frob_ND_ZZ, frob_ND_flint"]}
{"id": "C26", "title": "The Frobenius routine evaluates the truncated Frobenius series", "statement": "The vector accumulated by frob_J_ZZ represents, for every functional killing the relations, the class of the truncated series sum_j D_{j,m} f^j(x^p) x^{p(e_i+1)-1} Omega/f^{p(m+j)} scaled by (p(m+N-1)-1)!, in each of its loop modes (so all modes agree as classes).", "quantifier": "all smooth f, all basis elements, all N >= 1, all primes p, all loop modes 0,1,2", "why_tests_cant": "End-to-end functional correctness over all inputs.", "anchors": ["hypersurface/frob_J_ZZ.cc: frob_J_ZZ"]}
{"id": "C27", "title": "Series coefficients are those of t^-m", "statement": "With D_{j,m} as computed in the Frobenius routines, t^m * sum_{j<N} D_{j,m} t^j - 1 is divisible by (1-t)^N.", "quantifier": "all m >= 1, N >= 1, all t", "why_tests_cant": "Polynomial identity for all m,N.", "anchors": ["hypersurface/frob_J_ZZ.cc: Djm", "hypersurface/frob_J_ZZ_p.cc: Djm", "hypersurface_nd/hypersurface_nd.cc: Djm"]}
{"id": "C28", "title": "frob_J_ZZ_p keeps the factorial factor complete", "statement": "frob_J_ZZ_p reaches its final factorial assertion with the complete factor (p(m+N-1)-1)!. (Refuted for small primes: the last loop stops at e<m.)", "quantifier": "all p, n, m, N", "why_tests_cant": "Only p <= n with m > 1 is affected.", "anchors": ["hypersurface/frob_J_ZZ_p.cc: frob_J_ZZ_p"]}
{"id": "C29", "title": "Powers of f are computed once and correctly", "statement": "After any sequence of compute_fpow calls, entry j of the table is the j-th power of f (as a polynomial over Z/q) for every j up to the largest request, earlier entries never change, and the length assertion holds.", "quantifier": "all f, all call sequences", "why_tests_cant": "Depends on the history of requests.", "anchors": ["hypersurface/compute_fpow.cc: compute_fpow", "hypersurface/constructors.cc: init_after_dR"]}
{"id": "C30", "title": "Results do not depend on the cache history", "statement": "get_solve, get_reduction_matrix (both rings), get_inclusion_matrix and get_final_reduction_matrix return the same value whatever sequence of calls was made before, for both settings of save_memory; entries erased to save memory are recomputed to the same value.", "quantifier": "all call histories and both save_memory settings", "why_tests_cant": "Quantifies over histories.", "anchors": ["dr/get_solve_J.cc", "dr/compute_reduction_matrix_J_ZZ.cc", "dr/compute_reduction_matrix_J.cc", "dr/get_inclusion_matrix_J.cc", "dr/get_final_reduction_matrix_J.cc"]}
{"id": "C31", "title": "Parallel Frobenius matrix does not depend on the schedule", "statement": "After the precomputation done when more than one thread is used, no iteration of the parallel loop over basis elements writes to shared state (every cache lookup hits), so every interleaving yields the same matrix as the sequential run.", "quantifier": "all interleavings of all iterations", "why_tests_cant": "Schedules cannot be enumerated by tests.", "anchors": ["hypersurface/frob_matrix_J.cc", "dr/compute_everything_J.cc"]}
{"id": "C32", "title": "Parallel construction of a reduction matrix does not depend on the schedule", "statement": "The parallel loop over monomials writes disjoint columns and performs only lookups that hit, so the reduction matrix is the same for every execution order of the iterations.", "quantifier": "all permutations of iterations", "why_tests_cant": "Schedules cannot be enumerated by tests.", "anchors": ["dr/compute_reduction_matrix_J.cc: omp parallel for"]}
{"id": "C33", "title": "Finite-difference evaluation equals Horner-style evaluation", "statement": "finitediff_flint_nmod returns M(0)M(1)...M(k-1)G for every matrix polynomial M whose coefficient supports are nested (box of each coefficient contains the boxes of the higher ones) and is not identically zero, every k > n+1, and its final assertion holds.", "quantifier": "all moduli, sizes, degrees, k and nested matrix polynomials", "why_tests_cant": "k is of the size of p; exactness of the difference table must hold at every step.", "anchors": ["dr_nd/dr_nd.cc: finitediff_flint_nmod, nmod_mat_sub_submatrix"]}
{"id": "C34", "title": "Finite-difference evaluation is correct for every matrix polynomial", "statement": "finitediff_flint_nmod is correct for every matrix polynomial. (Refuted: if a coefficient's bounding box does not contain that of a higher coefficient the difference table is updated incompletely; if all coefficients vanish it reads before the start of its arrays.)", "quantifier": "all matrix polynomials", "why_tests_cant": "Needs a coefficient vanishing by accident.", "anchors": ["dr_nd/dr_nd.cc: finitediff_flint_nmod"]}
{"id": "C35", "title": "A non-degenerate reduction step preserves the cohomology class", "statement": "reduce_vector_ND / get_reduction_matrix_ND from W_{u+v} to W_u changes the form only by exact forms, for every v of sum d and every u.", "quantifier": "all non-degenerate f, all u, v, G, all functionals killing the logarithmic relations", "why_tests_cant": "Statement about all u; the stored matrices are polynomials of degree up to n+1 in u.", "anchors": ["dr_nd/dr_nd.cc: compute_reduction_matrix_ND, get_reduction_matrix_ND, reduce_vector_ND, get_reduction_matrix_ND_ZZ, reduce_vector_ND_ZZ"]}
{"id": "C36", "title": "Multi-step non-degenerate reduction equals repeated single steps", "statement": "reduce_vector_ND_poly, its integer and its FLINT variants give modulo q the same vector as k successive single steps, given the documented shape of the degree n+1 coefficients.", "quantifier": "all u, v, k >= 0, G", "why_tests_cant": "k of the size of p, polynomial identity in x.", "anchors": ["dr_nd/dr_nd.cc: compute_reduction_matrix_ND_poly, reduce_vector_ND_poly, reduce_vector_ND_poly_ZZ, get_ND_poly_flint, reduce_vector_ND_poly_flint"]}
{"id": "C37", "title": "Non-degenerate conversion to the basis preserves the class", "statement": "For every u with positive entries and sum d, get_coKernels_ND_to_basis(u) expresses elements of W_u in the cohomology basis without changing the class, and monomial_to_basis_ND terminates and returns the class of the monomial form.", "quantifier": "all non-degenerate f, all u, all elements of W_u", "why_tests_cant": "All monomials, all functionals.", "anchors": ["dr_nd/dr_nd.cc: compute_coKernels_ND_to_basis, compute_inclusion_matrix_ND, monomial_to_basis_ND"]}
{"id": "C38", "title": "The non-degenerate Frobenius routines keep their invariants", "statement": "In frob_ND_ZZ, frob_ND_ZZ_p and frob_ND_flint the direction search terminates for every term (also with the shift by the basis element), all intermediate exponents stay positive, the destination assertions hold and the terms end in W_u with sum(u)=d and u>0.", "quantifier": "all primes p, all basis elements, all N", "why_tests_cant": "Infinite loops or assertion failures for one monomial in unboundedly many.", "anchors": ["hypersurface_nd/hypersurface_nd.cc: frob_ND_ZZ, frob_ND_ZZ_p, frob_ND_flint"]}
{"id": "C39", "title": "The modulus stays valid during the parallel non-degenerate Frobenius", "statement": "frob_ND_flint never uses or frees its modulus after freeing it. (Refuted with more than one thread and a modulus of at least 2^62: it is freed in every step of the loop.)", "quantifier": "all thread counts, moduli and numbers of steps", "why_tests_cant": "A use-after-free depends on size of p^precision, thread count and number of steps.", "anchors": ["hypersurface_nd/hypersurface_nd.cc: frob_ND_flint (fmpz_clear(modulus))"]}
{"id": "C40", "title": "save writes only inside its own buffers", "statement": "save(filename) never writes outside the buffer for the temporary file name, for every file name. (Refuted: the buffer has 12 bytes; safe exactly for names of at most 7 characters.)", "quantifier": "all file names", "why_tests_cant": "Stack overflow is silent for most lengths.", "anchors": ["dr/save.cc: save", "dr_nd/dr_nd.cc: save"]}
{"id": "C41", "title": "Saving and loading gives back the same object", "statement": "Loading a saved de Rham object yields the same p, precision, n, d, basis, solve data and polynomial. (Proved when f is the naive lift of its reduction, with zero terms dropped; refuted for other lifts, for which the loaded polynomial differs from the one the stored matrices belong to.)", "quantifier": "all objects", "why_tests_cant": "Only non-naive p-adic lifts are affected.", "anchors": ["dr/save.cc: save", "dr/constructors.cc: de_Rham_local(const char*)"]}
{"id": "C42", "title": "A crash during save does not destroy the previous file", "statement": "If the process dies at any point during save, the file at the target path is either the old or the new complete content. (Refuted: the target is truncated in place; the .swp file only marks an unfinished save.) Whenever the .swp marker is absent and the file was created, the content is complete.", "quantifier": "all crash points", "why_tests_cant": "Crash points cannot be enumerated by unit tests.", "anchors": ["dr/save.cc: save"]}
{"id": "C43", "title": "Precision parameters of zeta_function are consistent", "statement": "For every supported (n,d), prime p and requested absolute precision, the run-time assertions of the precision logic hold; with the increase option no default precision is lowered and the characteristic polynomial is lifted; without it, the polynomial is lifted only if no column precision was lowered; columns are skipped only if they vanish modulo p^abs_precision.", "quantifier": "all p, abs_precision, n, d, both options", "why_tests_cant": "Unbounded parameters.", "anchors": ["wrapper/zeta_function.cc: zeta_function"]}
{"id": "C44", "title": "Polynomial maps survive printing and parsing", "statement": "Reading back a printed non-empty polynomial map gives the same map; reading a list with repeated monomials keeps the last coefficient.", "quantifier": "all non-empty maps and all input lists", "why_tests_cant": "All maps.", "anchors": ["tools.h: operator>>, operator<< for std::map"]}
{"id": "C45", "title": "Random change of variables has determinant one and is only returned if useful", "statement": "random_SL_matrix returns a matrix of determinant 1 for every outcome of the random generator; find_change_of_variables returns the identity if f is already non-degenerate, otherwise a matrix M such that f(Mx) is non-degenerate, or the zero matrix after N failures.", "quantifier": "all random sequences, all f, all N", "why_tests_cant": "All outcomes of the random generator.", "anchors": ["matrix/random_SL_matric.cc: random_SL_matrix", "dr_nd/dr_nd.cc: find_change_of_variables"]}
{"id": "C46", "title": "The cyclotomic search of geometric_picard is exhaustive and in bounds", "statement": "Every k whose cyclotomic polynomial has the degree of the factor under test satisfies the loop condition k/(log2 k + 1) <= degree, so it is tried, and the table of cyclotomic polynomials is never indexed out of bounds.", "quantifier": "all degrees and all k", "why_tests_cant": "Needs a lower bound of Euler's function for all k.", "anchors": ["tools/geometric_picard.cc: number_of_roots_of_unity, geometric_picard"]}
{"id": "C47", "title": "Smoothness and non-degeneracy tests decide surjectivity", "statement": "isSmooth returns true exactly if every form of degree (d-2)(n+1)+1 over F_p is in the Jacobian ideal (isND: of degree (d-1)(n+1)+1 in the logarithmic Jacobian ideal).", "quantifier": "all homogeneous f over F_p", "why_tests_cant": "Equivalence over all polynomials.", "anchors": ["dr/isSmooth.cc: isSmooth", "dr_nd/dr_nd.cc: isND"]}
{"id": "C48", "title": "All entry points of zeta_function see the same polynomial", "statement": "The overloads taking vectors of monomials and coefficients (machine or big integers) and the one taking text build the same polynomial map from the same data, with the last coefficient winning for repeated monomials.", "quantifier": "all inputs", "why_tests_cant": "All inputs.", "anchors": ["wrapper/zeta_function.cc: zeta_function overloads", "tools.h: operator>>"]}
{"id": "C49", "title": "geometric_picard counts the roots p*zeta, and its assertion follows from the Weil conjectures", "statement": "Let charpoly_frob have the complex roots s (with multiplicity). geometric_picard returns the number of z in s such that z/p is a root of unity, plus one if the dimension is even; the reversal of the coefficients, the substitution T -> T/p, the integrality test, the comparison with the cyclotomic polynomials and the multiplicities of the factorisation do not lose or add a root. If all roots have absolute value p, the parity assertion for surfaces never fails; without that hypothesis it can fail.", "quantifier": "all integer polynomials, all p >= 1, all dimensions", "why_tests_cant": "The tests do not call geometric_picard, and the parity argument is about all polynomials with roots of absolute value p.", "anchors": ["tools/geometric_picard.cc: number_of_roots_of_unity, geometric_picard"]}
{"id": "C50", "title": "Results of the non-degenerate object do not depend on the history of its tables", "statement": "get_solve_ND, get_inclusion_matrix_ND, get_coKernels_ND_to_basis, compute_reduction_matrix_ND, compute_reduction_matrix_ND_ZZ, compute_reduction_matrix_ND_poly and compute_reduction_matrix_ND_poly_ZZ return the same value whatever sequence of calls was made before, for both settings of save_memory; entries erased to save memory are recomputed to the same value. The same holds for the routines built on them (monomial_to_basis_ND, reduce_vector_ND_poly).", "quantifier": "all call histories, all arguments, both save_memory settings", "why_tests_cant": "Quantifies over histories.", "anchors": ["dr_nd/dr_nd.cc: get_solve_ND, compute_reduction_matrix_ND*, get_inclusion_matrix_ND, get_coKernels_ND_to_basis, monomial_to_basis_ND"]}
{"id": "C51", "title": "The parallel Frobenius matrix of the non-degenerate object does not depend on the schedule", "statement": "After compute_everything_ND(false, false) and compute_fpow, done when more than one thread is used, no iteration of the parallel loop of frob_matrix_ND writes to a table (every lookup of frob_ND_flint hits), so every interleaving gives the matrix of the sequential run. (The lifetime of the modulus in that branch is the subject of C39.)", "quantifier": "all interleavings of all iterations, all states of the tables before", "why_tests_cant": "Schedules cannot be enumerated by tests.", "anchors": ["hypersurface_nd/hypersurface_nd.cc: frob_matrix_ND, frob_ND_flint", "dr_nd/dr_nd.cc: compute_everything_ND"]}
{"id": "C52", "title": "The parallel loops of the non-degenerate routines do not depend on the schedule", "statement": "The branch of frob_ND_flint for several threads (all polynomials first, then the reductions in parallel on separate slices, then all results collected) computes what the branch for one thread computes, for every schedule of the slices. The parallel loop over the columns in compute_reduction_matrix_ND, whose iterations update one shared map in critical sections, gives the same matrices under every schedule.", "quantifier": "all schedules of the iterations and of the critical sections", "why_tests_cant": "Schedules cannot be enumerated by tests.", "anchors": ["hypersurface_nd/hypersurface_nd.cc: frob_ND_flint 563-656", "dr_nd/dr_nd.cc: compute_reduction_matrix_ND 907-1069"]}
{"id": "C53", "title": "The constructors' assertions hold exactly for smooth (non-degenerate) polynomials", "statement": "The constructor of de_Rham_local returns (its assertions on the Hilbert function of the Jacobian ring, on the top degree and on d % p all hold) if and only if f is smooth modulo p and p does not divide d; for d >= 3 the second condition follows from the first, so isSmooth returning true suffices. The basis it builds then has ((d-1)^(n+1) + (-1)^(n+1)(d-1))/d elements, so the assertion of zeta_function on the length of charpoly_prec holds for every supported (n, d). The constructor of de_Rham_non_degenerate_local returns if and only if f is non-degenerate modulo p, and its basis has d^n elements. A non-degenerate f is smooth. For d = 2, p = 2 isSmooth can return true and the constructor abort.", "quantifier": "all primes p, all precisions, all n < d, all homogeneous f", "why_tests_cant": "The Hilbert function of the Jacobian ring is a statement about all smooth polynomials over all primes.", "anchors": ["dr/init.cc 7-106", "dr_nd/dr_nd.cc 194-243: init_ND", "wrapper/zeta_function.cc 112-151"]}
{"id": "C54", "title": "zeta_function rejects exactly the polynomials it calls singular and otherwise assembles its phases correctly", "statement": "For every supported (n, d), every prime p >= 3 and every homogeneous f, zeta_function aborts if f is not smooth modulo p (the partial derivatives have a common zero). Otherwise the polynomial g it works with is f modulo p^precision, or f(Mx) modulo p^precision for a matrix M with determinant 1 modulo p that makes it non-degenerate; the assertions of both constructors and the one on the length of charpoly_prec hold; column i of the matrix is the truncated Frobenius series of basis element i divided by (p(m+N-1)-1)!/p^(n-1) (zero if its precision is 0), or the assertion in that division fails because the quotient does not exist; and the returned polynomial is that of the final phase on this matrix. If every such matrix determines a Weil polynomial P (sign +1) to the precisions of the table, P is returned. If abs_precision does not suffice for the lift, the coefficients of the characteristic polynomial of such a matrix are returned, each reduced to the range [0, p^abs_precision). Every f is rejected when p divides d, so a cubic over F_3 that is smooth in the usual sense is refused although the table has precisions for it.", "quantifier": "all primes p >= 3, all homogeneous f, all abs_precision <= 28, both flags, all random draws that contain an invertible matrix, all linear algebra routines meeting their documented specification; in the non-degenerate branch under the word-size condition of C36/C38", "why_tests_cant": "The composition of the phases must hold for all polynomials, primes and random draws; tests sample a few curves.", "anchors": ["wrapper/zeta_function.cc 28-172", "tools/default_args.cc 16-26", "dr/isSmooth.cc"]}
{"id": "C55", "title": "The basis of cohomology is independent modulo q, and the coordinates the code computes are the only possible ones", "statement": "For every object the constructor returns: every assignment of values in Z/q to the basis elements is taken by a functional on differential forms that kills exact forms, and that functional is unique. Hence two coordinate vectors of the same class modulo q are equal modulo q. Consequences: monomial_to_basis_J and monomial_to_basis_ND return the same vector modulo q, and the Frobenius sums are the same in every mode of the loop, for every history of the table of powers and for the two methods (Jacobian and non-degenerate).", "quantifier": "all smooth polynomials of all degrees d > n >= 1, all prime powers q, all exponents, all coordinate vectors, all solvers meeting the specification of the linear systems", "why_tests_cant": "That a class has only one coordinate vector is a statement about all functionals and all exact forms of all pole orders; it says that the comparison of two runs made by the project's self-tests cannot fail, and that the results proved equal as classes are equal as numbers.", "anchors": ["dr/init.cc 7-106", "dr/monomial_to_basis_J.cc 11-112", "dr_nd/dr_nd.cc 1440-1501", "hypersurface/frob_J_ZZ.cc"]}
{"id": "C56", "title": "The self-tests of the reduction routines cannot fail, whatever the random numbers; where they have undefined behaviour", "statement": "For every object built by a constructor: test_paths_J and the path test of the non-degenerate object, called with positive numbers of attempts and paths, never return false, never fail an assertion and never have undefined behaviour, for every sequence of random numbers; if they are still drawing numbers there is a continuation that makes them return true. test_monomial_to_basis_J and its non-degenerate version return true for N >= 0 as long as every basis element has pole order at most 21 - N; as soon as one has a larger pole order, the 64-bit factorial overflows (undefined behaviour). The behaviour for the remaining arguments (zero, negative) is determined too.", "quantifier": "all smooth (non-degenerate) polynomials, all prime powers q, all numbers of attempts and paths, all sequences of random numbers, all N, all solvers meeting the specification of the linear systems", "why_tests_cant": "These functions are the project's tests: running them samples a few random paths of a few polynomials. That no sequence of random numbers makes them fail is path independence of the reduction for all paths together with uniqueness of coordinates; the overflow appears only for N the examples never use.", "anchors": ["dr/test_paths_J.cc 11-100", "dr/test_monomial_to_basis_J.cc 11-80", "dr_nd/dr_nd.cc 1503-1656"]}
{"id": "C57", "title": "The constructors from a vector, from a polynomial modulo p and from random numbers: which object they build and when they return", "statement": "The vector constructors build the object of the polynomial whose coefficients are the entries in the order of the enumeration, and fail an assertion exactly when the length is wrong; the constructors from a polynomial modulo p use its representatives in [0, p); terms with coefficient zero change nothing but the stored polynomial. The random constructors consume random numbers in blocks of one per monomial and return the object of the first smooth (non-degenerate) polynomial; the tables left over from the search do not affect it. If p does not divide d and n < d they fail no assertion and can always still return; if p divides d (and d >= 3 for de_Rham_local) they never return; if d <= n they never return an object.", "quantifier": "all primes p, precisions, numbers of variables and degrees d >= 2, all sequences of random numbers, all echelon and inversion routines meeting their specification", "why_tests_cant": "Which polynomial is used depends on an unbounded sequence of random draws and on the tables left from rejected ones; non-termination cannot be observed by a test.", "anchors": ["dr/constructors.cc 7-93", "dr_nd/dr_nd.cc 19-102", "dr/init.cc 7-106"]}
{"id": "C58", "title": "A non-degenerate object written to a file and read back is the same object, and computing with it gives the same answers", "statement": "For every object init_ND returns, save writes a text; the file constructor applied to this text (even followed by other text) builds the object with the same parameters, monomial lists, dictionaries, both bases, both Hilbert functions and exactly the solve pairs the object computes, with the polynomial reduced to coefficients in [0, p). If the coefficients were in [1, p) the object is identical, and after every history of calls that starts from the tables read from the file each call succeeds exactly if the computation without tables does, with its value (both classes). For coefficients outside [0, p) the loaded tables can be wrong for the loaded polynomial (counterexample).", "quantifier": "all objects built by init_ND and init, all moduli, all histories of calls after loading, all settings of verbose and save_memory, all solvers that return reduced matrices", "why_tests_cant": "The text depends on every matrix of the object and on NTL's number format; agreement of all later answers is a statement about all histories of calls on the partially filled tables.", "anchors": ["dr_nd/dr_nd.cc 104-192", "dr_nd/dr_nd.cc 245-316", "dr/constructors.cc 95-162", "dr/get_solve_J.cc 10-36", "dr_nd/dr_nd.cc 358-382"]}
{"id": "C59", "title": "What the self-tests compare: a test that returns true has compared all paths of all forms, one that returns false has found a difference", "statement": "For every object and every solver, right or wrong: when the path test returns true it has drawn the requested number of forms and, for each, the requested number of paths, and all matrices of the paths of one form are equal; when it returns false it has drawn two paths of one form with different matrices. Every form with exponents below 20 and the right degree can be the one drawn. For an object built by a constructor, column j of the matrix of any path is the coordinates of x^u times the j-th monomial. For every function giving coordinates of monomials, the test of the powers of f returns true only if f^i b_j gets the coordinates (m-1)! at j and 0 elsewhere for all i <= N and all j, and returns false only if one of these fails.", "quantifier": "all objects, all solvers, all sequences of random numbers, all numbers of attempts and paths; for the powers of f all smooth polynomials and all functions computing coordinates", "why_tests_cant": "A test of a test needs wrong programs to run it on; a test that never compares anything passes every run on correct code. The claim quantifies over all wrong programs.", "anchors": ["dr/test_paths_J.cc 11-100", "dr/test_monomial_to_basis_J.cc 11-80", "dr_nd/dr_nd.cc 1503-1656"]}
{"id": "C60", "title": "The Frobenius matrix does not depend on the method, the mode, the integer type or the table of powers", "statement": "For every non-degenerate polynomial over Z/p^k the matrix of frob_matrix_ND is equal, entry for entry, to the matrix of frob_matrix_J, and one fails exactly when the other fails, with the same error; the image of a single basis element is the same from all modes of frob_J_ZZ, from frob_J_ZZ_p where its factor is complete, and from the three non-degenerate routines, whatever requests have extended the tables of powers before. In particular zeta_function gets the same matrix from either branch when f is non-degenerate. A column is determined, up to the power of p in the factorial that exceeds p^(n-1), by the class it has to represent.", "quantifier": "all primes p, exponents k, polynomials, precisions, histories of the table of powers, modes", "why_tests_cant": "test_JND_and_invariance compares the two methods on 20 random plane quartics for 5-bit primes; the equality is for all polynomials, dimensions and moduli, including when both must fail.", "anchors": ["hypersurface/frob_J_ZZ.cc 11-305", "hypersurface/frob_J_ZZ_p.cc 11-279", "hypersurface/frob_matrix_J.cc 14-46", "hypersurface_nd/hypersurface_nd.cc 56-825", "wrapper/zeta_function.cc 136-151"]}
{"id": "C61", "title": "The finite differences restricted to rectangles make zeta_function fail or err on diagonal cubics; subtracting whole matrices repairs them", "statement": "finitediff_flint_nmod subtracts only inside the rectangle of the non-zero entries of the next coefficient. With the subtraction of whole matrices (the line commented out in the source), or with rectangles enlarged to contain those of the later coefficients, the result is M(0) M(1) ... M(k-1) G for every matrix polynomial that is not zero, and the FLINT routine makes k single reduction steps for every object and every u, v. As written it does not: zeta_function with the default arguments fails an assertion on the Fermat cubic over F_17, and returns a wrong polynomial without notice for 2x^3 + y^3 + 3z^3 over F_7 with abs = 1, while the method for degenerate polynomials is right on both.", "quantifier": "all matrix polynomials, moduli, numbers of steps, objects; concrete inputs for the refutations", "why_tests_cant": "The tests use random polynomials, whose coefficient matrices are nested with high probability; sparse polynomials are not tried.", "anchors": ["dr_nd/dr_nd.cc 1858-1991", "dr_nd/dr_nd.cc 749-859", "wrapper/zeta_function.cc 136-151"]}
{"id": "C62", "title": "Five of the test programs report success for wrong programs: two compare an object with itself, one goes on after a disagreement, one compares three columns of 21, one never reads the expected answers", "statement": "test_invariance_J and test_invariance_ND construct the object hs2 of the transformed polynomial but compute the second Frobenius matrix from hs; for every solver, determinant and random value, if they return they report success, and so do the two programs, whatever primes and random values they use, and a wrong solver exists that they accept and that the comparison with hs2 would reject. test_JND_and_invariance ends with the same exit status if the matrices of frob_J are replaced by any square matrices. With linear algebra that meets its specification the two matrices agree in every run that returns, so its first comparison fails only for a wrong program, provided that the word-size routine meets only polynomials it can handle (C36). One run of test_K3p3 compares columns 0, rand() % 19 + 1 and 20; the runs pass for every value of rand() exactly if all 21 columns are right, and a wrong column passes in the other runs. test_zeta_function writes the expected polynomial to the stream a second time instead of reading it, and treats equality as failure: its exit status is 0 for every implementation of the linear algebra and every expected text. The programs report success only if every run did (for test_JND_and_invariance: in the second comparison). The polynomial of the second object in test_invariance_ND and test_JND_and_invariance is f(Sx) for a matrix S of determinant 1 modulo p, followed by a second change of determinant 1 after which it is non-degenerate, or, if all 1000 attempts failed, by the zero matrix, which the programs do not check: then it is the zero polynomial. For plane curves (6 x 6 matrices) the first comparison of test_JND_and_invariance is that of the two matrices, the second that of the coefficients 0 to 6 of the characteristic polynomials of the two matrices reduced modulo p^2: they have to agree modulo p^4, p^3 and, from coefficient 2 on, p^2.", "quantifier": "all solvers, linear algebra routines, random values, objects, inputs with p >= 3 (p >= 2 for test_zeta_function), expected texts; concrete runs for the refutations", "why_tests_cant": "It is the tests that are wrong; they pass.", "anchors": ["hypersurface/test/test_invariance_J.cc 13-92", "hypersurface_nd/test/test_invariance_ND.cc 13-98", "hypersurface_nd/test/test_JND_and_invariance.cc 12-192", "wrapper/test/test_zeta_function.cc 14-100", "hypersurface/test/test_K3p3.cc 17-101"]}
{"id": "C63", "title": "The program frob reads the documented files, refuses exactly the singular polynomials, and writes the Frobenius matrix of the polynomial it prints; its output is an input file for the same result", "statement": "A file in the general form (p, precision, n, d, f, N, absolute precision) followed by a newline is read as documented; a file in the short form gets the precisions of default_args for a quartic surface, for every odd prime. The length of f is checked. For a polynomial that is not zero modulo p the program stops with an error exactly when it is not smooth; otherwise the polynomial it prints is f(Mx) for the matrix M it prints, non-degenerate, or f itself if M is zero, and the matrix is that of Frobenius on the basis of this polynomial, checked against the length of the precisions. The output file, read by the program, gives the same output. Refuted: a file in the general form without a newline at the end, and a short one followed by six empty lines, are not accepted; p = 2 is refused although default_args has a row for it; the zero polynomial dereferences the end of an empty map; the absolute precision is not compared with the precision, and with a matrix modulo p and precisions modulo p^2 a polynomial with a wrong constant term is written.", "quantifier": "all odd primes, precisions >= 1, the dimensions and degrees of default_args, all coefficient vectors, all libraries that satisfy their specification, all random matrices, all numbers of attempts, all texts that follow", "why_tests_cant": "The program has no test; the files differ by a newline at the end, which editors add or remove.", "anchors": ["examples/frob.cc 41-297"]}
{"id": "C64", "title": "The pencil x^4 + y^4 + z^4 + w^4 + lambda xyzw: K3_dwork and K3_dwork2 stop exactly on the singular members and otherwise print the same", "statement": "For every odd prime p the member with parameter lambda is smooth modulo p, and non-degenerate modulo p, exactly if p does not divide lambda^4 - 256. K3_dwork only prints a message for a singular member and goes on, but an assertion of the constructor then always stops it, so that no polynomial is printed; for all other members the basis has 21 elements, the computation is that of the Frobenius matrix on this basis, and the polynomial printed is the one determined by that matrix. For 0 <= lambda < p K3_dwork2, which searches for a better model, never finds anything to improve and gives the same output as K3_dwork, error for error.", "quantifier": "all primes p >= 3, all lambda, all libraries that satisfy their specification, all random matrices", "why_tests_cant": "The programs have no test; the singular parameters depend on p, and K3_dwork prints that the curve is not smooth without returning.", "anchors": ["examples/K3_dwork.cc 23-76", "examples/K3_dwork2.cc 26-53"]}
{"id": "C65", "title": "isSmooth and isND decide whether there is a singular point over some field", "statement": "isSmooth answers true exactly if the partial derivatives of f have no common zero with coordinates in any field of characteristic p, and isND exactly if the x_i df/dx_i have none, although both only compute one rank modulo p in one degree. If p does not divide d these common zeros are the singular points of the hypersurface. Consequently the constructor accepts f exactly if p does not divide d and there is no singular point, zeta_function throws its exception for every f with a singular point over any extension, and the algebraic condition called smooth in the other properties has its geometric meaning.", "quantifier": "all primes p, all n and d, all polynomials, all fields of characteristic p (not only finite ones), all points, all libraries that satisfy their specification", "why_tests_cant": "Tests can only try the points over a few finite fields; a singular point may need a large extension, and its absence is a statement about all fields.", "anchors": ["dr/isSmooth.cc: isSmooth", "dr_nd/dr_nd.cc: isND", "dr/init.cc 7-106", "wrapper/zeta_function.cc 28-172"]}
{"id": "C66", "title": "Raising the working precision only adds p-adic digits", "statement": "The Frobenius matrix computed with precision k consists of the last digits of the one computed with a higher precision k', for the same polynomial or for one that is congruent modulo p^k: the basis is the same, and every entry is the entry at the higher precision reduced modulo p^(k - c), where c is the number of digits that the final division costs, max(0, v - (n-1)) with p^v the power of p in the factorial (p(m+N-1)-1)!. The entries have no digits beyond these, so that the differing precision of the columns is visible in the result, and if the higher precision succeeds then so does the lower one. The same holds for the matrices of the non-degenerate method.", "quantifier": "all primes p, all precisions 1 <= k <= k', all pairs of polynomials that agree modulo p^k, all numbers N of terms, all three loop variants of the Frobenius, all elimination and inversion routines that satisfy their specification", "why_tests_cant": "Each test runs one polynomial with one fixed precision and compares with one table; that the digits agree for every pair of precisions and every lift of the polynomial is a statement about infinitely many runs.", "anchors": ["hypersurface/frob_J_ZZ.cc 11-305", "hypersurface/frob_matrix_J.cc 14-46", "hypersurface_nd/hypersurface_nd.cc 56-825", "solve_system/solve_system.cc", "dr/init.cc 7-106", "hypersurface/test/test_K3p3.cc 53-73"]}
{"id": "C67", "title": "Routines that write through pointers are right exactly as they are called", "statement": "The routines of matrix.h that write their result through a pointer or reference (mul for nmod matrices, mul_transpose and transpose_mul_transpose with their specialisations for ZZ_p, nmod_mat_sub, nmod_mat_sub_submatrix) compute the product or difference, leave all other objects alone and do not depend on the former content of the result, provided that the result of a product is not one of its operands; the differences may be taken in place, as the code does. If the result is an operand, the products are wrong. The loops that use them with two exchanged buffers that are not initialised (word-size branch of reduce_vector_ND_poly_flint, finitediff_flint_nmod with its table of differences in place) end with the same values as the functional models about which the other properties speak.", "quantifier": "all memories (contents of uninitialised buffers, addresses), all dimensions, all moduli, all matrices and vectors, all numbers of iterations", "why_tests_cant": "Whether a buffer is read before it is written, or two arguments are the same object, shows only for particular contents of memory; a test sees one of them.", "anchors": ["matrix.h 49-60, 112-147, 156-174, 183-207", "matrix/mul_tranpose.cc 17-41", "matrix/transpose_mul_tranpose.cc 17-41", "dr_nd/dr_nd.cc 749-859: reduce_vector_ND_poly_flint", "dr_nd/dr_nd.cc 1740-1751, 1858-1991: finitediff_flint_nmod", "solve_system/solve_system.cc 560-565"]}
{"id": "C68", "title": "Every polynomial that is returned satisfies the functional equation to working precision; the polynomial recorded in test_dwork cannot be returned", "statement": "Whatever the matrix and the precisions are, if charpoly_frob returns a polynomial P of degree deg then there is a sign eps (1 when the dimension is odd) such that for every i < deg/2 the coefficients satisfy P_i = eps * P_(deg-i) * p^((deg-2i)*dim/2) modulo p to the larger of the two precisions carried over by the equation; in particular p^((deg-2i)*dim/2) divides P_i. The middle coefficient of an even degree is excepted: when the sign is -1 it is negated and the program goes on. With the default arguments the constant term of what zeta_function returns is eps * p^(deg*dim/2) * (1 + p*c). Hence an expected polynomial whose constant term is not divisible by the prime of the call never agrees; test_dwork calls with 23 and records a polynomial with constant term -11^21, so that the test, once it reads and compares the polynomial as intended, fails for every implementation.", "quantifier": "all square matrices, all precisions, all p >= 2, all dimensions, all implementations of the linear algebra, all random values, all input polynomials", "why_tests_cant": "The tests compare a few polynomials, and test_zeta_function does not read the expected ones (C62), so that a wrong record stays unnoticed; the property is about every result of every library.", "anchors": ["matrix/charpoly_frob.cc 14-93", "wrapper/zeta_function.cc 152-170", "wrapper/test/test_zeta_function.cc 14-46, 48-67, 70-89", "tools/default_args.cc 13-179"]}
{"id": "C69", "title": "The floating point assertion on the precisions decides the exact inequality except for ties", "statement": "The assertion log(k)/log(p) + prec[degree-k] > log(2*degree)/log(p) + 0.5*dimension*k of charpoly_frob, evaluated with any floating point arithmetic whose operations and logarithm have relative error at most 2^-50 (IEEE double with rounding to nearest and a correctly rounded logarithm is proved to be one), gives the same answer as the exact inequality k*p^prec > 2*degree*p^(dimension*k/2) for 2 <= p < 2^63, degrees and precisions up to 1024 and dimension*k up to 2048, unless both sides of the exact inequality are equal. Hence charpoly_frob with doubles returns what the model with the exact test returns. For the built-in tables there is no tie, and the assertion holds for every odd prime below 2^63. For a tie the answer depends on the rounding. Likewise the IEEE double k/(log(k)/log(2) + 1), with which geometric_picard bounds its search for cyclotomic factors, is exact for k = 1 and 2 and otherwise compares correctly with every integer that differs from the exact value by a factor of 8/7 or more, which is what C46 and C49 need.", "quantifier": "all floating point arithmetics with that error bound, all p < 2^63, all degrees, precisions, dimensions and k in the ranges, all matrices", "why_tests_cant": "Rounding errors matter only for inputs where both sides are close, which tests do not contain; which inputs are close for some p below 2^63 cannot be enumerated.", "anchors": ["matrix/charpoly_frob.cc 68-74", "tools/default_args.cc 13-179", "tools/geometric_picard.cc 51, 91"]}
{"id": "C70", "title": "The test programs of dr and dr_nd never report a failure", "statement": "The four programs dr/test/test_paths_J, dr/test/test_monomial_to_basis_J, dr_nd/test/test_paths_ND and dr_nd/test/test_monomial_to_basis_ND (ten random primes of at least 43, random smooth or non-degenerate plane curves of degree 3 to 5 and quartic surfaces, precision 4) end with PASS for every sequence of random numbers that lets them end: no test fails, no assertion fails and no behaviour is undefined. If the numbers do not suffice, the program is waiting for more and some continuation makes it end with PASS. The programs end normally only if every one of their tests passed.", "quantifier": "all sequences of random numbers, all sources of primes that yield a prime of at least 43, all linear algebra routines that meet their specification", "why_tests_cant": "The programs are the tests; a run sees one sequence of random numbers, the statement is about all of them.", "anchors": ["dr/test/test_paths_J.cc 13-50", "dr/test/test_monomial_to_basis_J.cc 12-49", "dr_nd/test/test_paths_ND.cc 13-50", "dr_nd/test/test_monomial_to_basis_ND.cc 12-53"]}
{"id": "C71", "title": "The printed times are the differences of the two moments", "statement": "timevaldiff_in_seconds and timestamp_diff_in_seconds return end - start exactly, up to the rounding of the double: for timespec for all pairs, for timeval whenever the microseconds differ by at most 2^31 - 1 - 1000000. For pairs as the system returns them nothing overflows, the part below a second is in the range [0, 1 s), and the seconds are not negative if the end is not before the start. For other pairs the part below a second can be a whole second (line 20 has > instead of >=) and the product 1000000 * nsec of type int can overflow.", "quantifier": "all pairs of times", "why_tests_cant": "The times are only printed; no test looks at them, and a wrong carry shows up only when the microseconds wrap around.", "anchors": ["timing.h 11-27", "timing.h 58-69"]}
{"id": "C72", "title": "The inputs that come with the project are read as meant and are smooth, so that no program refuses them", "statement": "The texts in the two wrapper examples (the same as in two tests of test_zeta_function) and the three input files of examples/frob.cc are read as the polynomials, primes and precisions they stand for. The polynomials are smooth modulo their primes 17, 23 and 5; so is the one of test_dwork, which is even non-degenerate. Hence for every right linear algebra library and all random values zeta_function and frob do not reject them: the constructors succeed, the basis has the length dim H, and the program prints the polynomial that charpoly_frob gives for a matrix of Frobenius, unless an assertion fails in a division or in charpoly_frob. The precisions in the files for the curve modulo 17^3 and for the surface are those of default_args.", "quantifier": "all linear algebra routines meeting their documented specification and all random draws that contain an invertible matrix; the inputs are the six fixed ones; in the non-degenerate branch under the word-size condition of C36/C38", "why_tests_cant": "The programs are run with one library and one sequence of random values; smoothness is a statement about all fields of characteristic p.", "anchors": ["examples/zeta_function_wrapper_genus3.cc 11-21", "examples/zeta_function_wrapper_K3.cc 12-27", "wrapper/test/test_zeta_function.cc 15-26, 49, 71", "examples/example_quartic_curve.input", "examples/example_quartic_curve_modp.input", "examples/example_quartic_surface.input", "wrapper/zeta_function.cc 224-248"]}
