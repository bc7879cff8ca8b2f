# Formal model of controlledreduction in Rocq/Coq 8.16.1

This file says what is modelled, how each property of `properties.jsonl` is
approached, and what has to be trusted.

## Approach

* The model is written in Gallina, function by function, in
  `rocq/theories/*Model.v`.  Each definition cites the file and lines in /repo.
* Independent specifications are in `*Spec.v`, proofs in `*Proofs.v`, and the
  property theorems in `*Props.v` (nothing but statements closed by
  `exact`, an example meeting the hypotheses, and `Print Assumptions`).
* Integers are `Z`; elements of Z/q are `Z` reduced by `mod q` after each
  operation; `Vec<int64_t>` is `list Z`; `std::map` is a sorted association
  list searched with the modelled comparison.
* Undefined behaviour, failed assertions, aborts and non-termination are
  distinct outcomes of a result type, not silently defined.
* External routines (FLINT/NTL LU decomposition, inverse, random generator)
  are universally quantified functions constrained by their documented
  specification.

## Trusted base

* Coq's kernel (including `vm_compute`).
* The assumptions printed by `Print Assumptions` for each theorem (listed per
  theorem in the section "Assumptions" below).
* The faithfulness of the hand-written model to the C++ text.

## Plan per property

* **C01 Monomial ordering is a strict total order.** Vectors are `list Z`; operator< is a scan that returns an error outcome on a length mismatch and the UB outcome on length 0. Proved by induction against an independent lexicographic definition; sorted association lists (the model of std::map) then get find/insert/erase laws.
* **C02 Monomial enumeration is complete, duplicate free and sorted.** The while loop is a fuelled iteration of the successor step; proved to enumerate by an invariant (each step yields the least larger tuple) and counted by a stars-and-bars lemma.
* **C03 Reverse dictionary inverts the enumeration.** Dictionary = left fold of inserts; find after fold by induction with NoDup from C02.
* **C04 Binomial coefficients are exact when representable.** Products over ranges in Z; exactness through the factorial quotient spec defined by Pascal's rule.
* **C05 Binomial never returns a wrong value silently.** Refutation by computation: C(67,33).
* **C06 valuation_of_factorial is Legendre's formula.** Digit loop as fuelled recursion; Legendre's recursion.
* **C07 factorial_p_adic splits a factorial into unit and power of p.** Both nested loops by (fuelled) recursion; product invariants.
* **C08 tweak lowers a monomial by exactly r, deterministically and monotonically.** Structural induction on the vector / on r.
* **C09 Linear change of variables substitutes correctly.** Sparse maps; evaluation homomorphism into Z/q.
* **C10 Expansion of a shifted monomial is correct.** Same evaluation technique over Z.
* **C11 Integer conversion NTL <-> GMP/FLINT preserves the value.** Byte lists, little endian; size computations explicit.
* **C12 Flat GMP matrix routines compute the matrix operation.** Memory = function from index to Z with explicit bound check outcome; proved when every matrix is square or has at most one row; refuted for all other shapes.
* **C13 charpoly is the characteristic polynomial.** Loops on Z matrices; MathComp det; Newton identities through the adjugate.
* **C14 charpoly_frob recovers the exact integer polynomial.** Integer loop on coefficient list; floating point log test replaced by the exact inequality (justified by C69); congruence arithmetic.
* **C15 charpoly_frob determines the sign of the functional equation.** Witness T^2-p^2.
* **C16 Built-in precision tables are consistent for every prime.** Table as Gallina function of (p,n,d); monotonicity in p plus finite computation per row. C16_N_suffices (DigitsProps) counts digits: the theorem is about the numbers in the table, the step from columns to minors and the divisibility of the columns are not part of it; it was found because an edit of N in the table went unnoticed.
* **C17 Linear solver over F_p: complement basis and right inverse.** LU/gauss and inverse are oracles with their documented spec; pivot scans modelled literally.
* **C18 p-adic solver lifts to the full precision.** Newton iteration on matrices over Z modulo p^(2^k).
* **C19 The relation matrix represents (H_i) -> sum H_i df/dx_i.** Fold of entry updates.
* **C20 A single reduction step preserves the cohomology class.** Quotient-free: functionals phi on monomial forms killing the Griffiths-Dwork relations modulo q.
* **C21 Multi-step reduction equals repeated single steps.** Induction on the number of iterations.
* **C22 Inclusion and final reduction matrices preserve the class.** Induction on the pole order.
* **C23 monomial_to_basis_J returns the class of any monomial form.** Composition of C20, C22 with the path loop.
* **C24 Reduction directions always exist and keep the path inside the cone.** Loop invariants on integer vectors.
* **C25 Factorial bookkeeping of the Frobenius routine is exact.** Products over ranges.
* **C26 The Frobenius routine evaluates the truncated Frobenius series.** Composition over the Horner scheme in e.
* **C27 Series coefficients are those of t^-m.** Binomial sums over Z.
* **C28 frob_J_ZZ_p keeps the factorial factor complete.** Witness n=3, p=3, m=2.
* **C29 Powers of f are computed once and correctly.** State machine over call lists.
* **C30 Results do not depend on the cache history.** State machine with a memo table; invariant table entry = pure value.
* **C31 Parallel Frobenius matrix does not depend on the schedule.** Interleaving semantics of threads issuing cache requests.
* **C32 Parallel construction of a reduction matrix does not depend on the schedule.** Permutation invariance of folds of disjoint updates.
* **C33 Finite-difference evaluation equals Horner-style evaluation.** Difference-table invariant.
* **C34 Finite-difference evaluation is correct for every matrix polynomial.** Witness with a vanishing coefficient.
* **C35 A non-degenerate reduction step preserves the cohomology class.** As C20 with logarithmic relations x_i df/dx_i.
* **C36 Multi-step non-degenerate reduction equals repeated single steps.** As C21, polynomial substitution by C10.
* **C37 Non-degenerate conversion to the basis preserves the class.** As C22/C23.
* **C38 The non-degenerate Frobenius routines keep their invariants.** Loop invariants on integer vectors.
* **C39 The modulus stays valid during the parallel non-degenerate Frobenius.** Lifetime state machine of the variable.
* **C40 save writes only inside its own buffers.** Byte counts of strcpy/strcat against the buffer size.
* **C41 Saving and loading gives back the same object.** Token-level serialiser/parser.
* **C42 A crash during save does not destroy the previous file.** File system operations with a crash after any prefix.
* **C43 Precision parameters of zeta_function are consistent.** Integer vectors.
* **C44 Polynomial maps survive printing and parsing.** Token-level serialiser/parser.
* **C45 Random change of variables has determinant one and is only returned if useful.** Random generator = arbitrary infinite sequence (oracle); determinants through MathComp.
* **C46 The cyclotomic search of geometric_picard is exhaustive and in bounds.** Lower bound of Euler's function (MathComp totient).
* **C49 geometric_picard counts the roots p*zeta; the assertion follows from the Weil bound.** Roots in algC (MathComp).
* **C50 Results of the non-degenerate object do not depend on the history of its tables.** Invariant "every entry is the value"; requests at three levels.
* **C51 The parallel Frobenius matrix (non-degenerate) does not depend on the schedule.** Hoare-style coverage of the requests by the preparation.
* **C52 The parallel loops of the non-degenerate routines do not depend on the schedule.** Commuting updates, permutations.
* **C53 The constructors' assertions hold exactly for smooth (non-degenerate) polynomials.** The Koszul complex of n+1 forms whose ideal contains all forms of some degree is exact (HilbKoszul, HilbPoly, HilbTop: no algebra library, congruences modulo p only), hence the dimension of the quotient in degree t is the coefficient of (1+z+...+z^(e-1))^(n+1) (HilbDim, HilbNum), which is what the code asserts (HilbInit, HilbCode).
* **C54 zeta_function rejects exactly the polynomials it calls singular and otherwise assembles its phases correctly.** Composition of C16, C26, C38, C43, C45, C47, C53: change_of_variables commutes with reduction modulo p up to congruence, so the model found modulo p is non-degenerate modulo p^precision too. Complete runs on plane cubics are computed in RunProps and compared with point counts (LuFast: a matrix inverse that can be run). The same functions, extracted and run outside this repository, agreed with point counts for about 30 elliptic curves, p from 5 to 23.
* **C55 The basis is independent modulo q and coordinates are unique.** For each pole order k fix the decomposition of every monomial form as (combination of the partial derivatives) + (combination of the basis) given by the linear system of that degree (for k <= n the code's own solution, beyond it the solver of C18). Define phi by recursion on the pole order from that decomposition. It satisfies GD because every syzygy of the partial derivatives is, modulo q, a Koszul one (C53's exactness modulo p lifted to p^k, UniqKoszul) and the divergence of a Koszul syzygy is again in the ideal with divergence-free coefficients; it takes the prescribed values because the basis monomials, spanning a quotient of the right size, are independent modulo p and hence modulo p^k (UniqFun, UniqCode).
* **C56 The self-tests cannot fail.** Random numbers are an arbitrary list. A run either returns true or stops for lack of numbers, and then some continuation returns true (`live`, closed under sequencing; each drawing loop has a measure that some number decreases). The matrix of a path is determined by its columns, whose classes do not depend on the path (C20, C22, C35, C37), hence by uniqueness of coordinates (C55) all paths give the same matrix. The second test follows from the Euler relation d f = sum x_i df/dx_i, p not dividing d, and uniqueness. (TestProofs, TestBasis.)
* **C57 Constructors.** The map built from a vector is characterised by its coefficients and uniqueness of sorted maps. For the random constructors, init is modelled with the table of solved systems as an argument; a table left by the last drawn polynomial is cleared before init, and the search is a loop over blocks of numbers that stops at the first block whose top system is solvable, which by C53's lemmas means smooth (non-degenerate). The polynomial sum x_i^d shows that some block is accepted if p does not divide d; Euler's relation shows that none is if p divides d. (CtorProofs, CtorRand.)
* **C58 Saving and loading a non-degenerate object.** The reader of C41 is split into a part that returns the text not yet read; the levels of the second basis are read by the same lemma. The table read from the file holds, in increasing degree, the values of `get_solve_J` and `get_solve_ND`, so it satisfies the invariant of the tables of C30 and C50, from which all histories follow. (SaveNDProofs.)
* **C59 What the self-tests compare.** C56 says that the tests return true, which a test without comparisons would do too. TestSpec describes a run as a list of forms with the matrices drawn for each; the loops are proved to relate their result to that list for any object and solver. The sum over the terms of f^i is read off for any coordinate function. (TestDetect.)
* **C60 All methods give the same matrix.** C55 makes the sums before the division equal modulo q; the division reads them only modulo q, and the two ways of computing the factorial (product, or valuation and unit part) agree. So the results are equal as values of `res`, including failed assertions. (AgreeProps.)
* **C61 The rectangles of the finite differences.** The induction of C33 only needs that the differences of order j+1 vanish outside rectangle j+1; whole matrices and enlarged rectangles have this for every M. The refutations evaluate the model of zeta_function on diagonal cubics, where M(x) has an entry that is a multiple of x^3 and the coefficients of x and x^2 vanish there. (FdProofs, FlintProps.)
* **C62 What the test programs can detect.** The second call of frob_matrix on the same object only finds the table of powers of f extended; no row changes (row_J_grow, row_ND_grow), so the two polynomials are equal. The lifted polynomial always has leading coefficient 1, hence differs from the zero polynomial that test_zeta_function compares it with. That the first comparison of test_JND_and_invariance succeeds is C60 for the tables of powers that the two calls leave. (InvModel, InvProofs, InvProps, JndProps.) C62_transform is in TransProps, C62_JND_compares in JndCmpProps.
* **C63 The program frob.** The form of the input is decided by counting newlines, so the count of the printed text is needed (count_general). Substituting the identity writes zero coefficients into the map, so the polynomial is not the same list; every linear functional of the coefficients is the same (phi_ident), which gives smoothness and non-degeneracy. Reduced coefficients stay reduced under a change of variables (red_cov), so the lift to Z/q is the same list. The rest is the analysis of C54. (ExModel, ExSpec, ExIdent, ExProofs, ExProps.)
* **C64 The Dwork pencil.** Modulo the logarithmic derivatives 4 x_i^4 = - lambda xyzw, so a monomial of degree 13 with t_i >= 4 is a multiple of the monomial with 4 taken from t_i and 1 added everywhere. Every one of the 560 monomials reaches in at most 4 such moves one from which a cycle through all four variables is possible (search_all, by computation); the cycle multiplies it by lambda^4 / 256, so it is zero unless lambda^4 = 256. Conversely the point (1 : 1 : 1 : w) with lambda w = - 4 is singular, and evaluation there is a functional that vanishes on the Jacobian ideal. The rest is the analysis of C54. (DwModel, DwProofs, DwProps.)
* **C65 Points.** A common zero in a field makes evaluation of forms a functional that vanishes on the ideal, so the ideal cannot contain the powers of the variables. Conversely, if no power of x_i is in the ideal, the ideal of all P whose homogenisations with x_i of large degree lie in the ideal is proper; adding one after the other all polynomials that keep it proper (an increasing chain, defined without choice by "if 1 is not obtained") gives a maximal ideal, and the residue field (residue) has the classes of the variables as common zero. Inverses in it exist up to double negation, which is enough for the statement and avoids every axiom. That the ideal then is everything already in degree (d-2)(n+1)+1 is C53. Spec: PtSpec (fields, evaluation, derivatives, independent of the model). (PtSpec, PtMax, PtProofs, PtConv, PtMain, PtProps.)
* **C66 Digits.** The p-adic solver chooses the rows and columns by an elimination modulo p, so the basis depends on f modulo p only. Given a functional modulo p^k that kills the exact forms of f, C55 gives one modulo p^k' that kills those of f' and takes the same values on the basis; modulo p^k both kill the exact forms of f, so they agree (lift_functional, by the uniqueness behind C54/C55). Applied to the series of C26 at both precisions this gives the congruence of the two vectors modulo p^k. The final division (multiplication by p^(n-1), division by p^v u) then loses max(0, v-(n-1)) digits. Spec: DigSpec. (DigSpec, DigProofs, DigProps.)
* **C67 Memory.** The other models treat the routines of matrix.h as functions. Here the memory is explicit (MemModel: objects by address, every access checked), so that two arguments may be the same object and buffers may contain anything. One lemma (writes) about loops that write every cell of one object once gives all routines; the loops with exchanged pointers are compared with nd_poly_step, fd_table, fd_update and fd_loop by invariants. Not covered at this level: NTL and FLINT routines that are called as library (their documentation allows operands as result). Spec: MemSpec. (MemModel, MemSpec, MemProofs, MemLoop, MemProps.)
* **C68 Functional equation of every result.** C14 says that the right polynomial is found if the matrix is that of a Frobenius; here nothing is assumed about the matrix. Invariant of the symmetry loop: for the indices passed, precisions are full_prec and the two coefficients agree modulo p to that power; the power sum loop then changes each coefficient only by a multiple of p^prec. The consequences for the constant term show that the text in test_dwork does not belong to the prime 23 of the call. ExpModel has the comparison of test_zeta_function.cc with its two slips repaired, and the three texts. Spec: half, full_prec of CharSpec. (ExpModel, ExpProofs, ExpProps.)
* **C69 Floating point test.** Closes the simplification in C14 (exact inequality for the test with logarithms). Relative errors are carried through the expression (at most 7 units of 2^-50 on each side); the exact sides differ by at least 1/(4*degree^2+1) in the logarithm because they are integer multiples of the same power of p. The arithmetic is an argument with a specification (double_like); FlIeee proves that IEEE double meets it, with Flocq. Ties are decided by the rounding. In double arithmetic on the machine at hand some ties come out true (p = 3, degree 9, dimension 2, k = 2, precision 4) and others false (p = 3, degree 6, dimension 1, k = 4, precision 3); this was observed with Python, not proved. Spec: FlSpec. (FlModel, FlSpec, FlProofs, FlIeee, FlProps.) C69_picard closes the assumption double_ok of C46 and C49 for IEEE double in the same way: the relative error of k/(log(k)/log(2) + 1) is at most 16 units, far below the factor 8/7 that the specification allows.
* **C70 Test programs.** Composition of C57 (the random constructors can always return and then return a smooth object) with C56 (the tests succeed on every such object), through the loops of the four mains. The bound on the pole order that C56 needs for (m-1)! in a word comes from C22. (TmainModel, TmainProps.)
* **C71 Times.** Linear arithmetic over the carries; the int products are checked for overflow. (TimeModel, TimeProps.)
* **C72 Shipped inputs.** The texts are parsed by evaluation; plane curves are shown smooth by evaluating isSmooth with one right library, surfaces with certificates over all fields (C65); then C54 and the proof of C63. (WrapModel, WrapProps.)
* **C47 Smoothness and non-degeneracy tests decide surjectivity.** Rank oracle; surjectivity spec.
* **C48 All entry points of zeta_function see the same polynomial.** Folds of insertions.

## What is modelled, where

| Code | Model | Theorems |
|---|---|---|
| vec_int64.h, vec_int64/*.cc | VecModel | C01, C08 |
| tools: tuple lists, binomials, factorials, changes of variables | ToolsModel | C02, C04–C07, C09, C10 |
| matrix templates used by the Jacobian routines | MatModel | inside C19–C32 |
| dr/*.cc: initialisation, relation matrix, reduction, inclusion, final reduction, monomial_to_basis_J | DRModel | C03, C19–C24, C53 |
| hypersurface/*.cc (frob_J_ZZ, frob_J_ZZ_p, powers of f, frob_matrix_J) | FrobModel | C24–C29 |
| the lazily filled tables of dr and hypersurface (solve, reduction, inclusion, final, powers), save_memory, OpenMP loops of frob_matrix_J | ProgModel, CacheModel | C30, C31 |
| the tables of de_Rham_non_degenerate_local, save_memory, compute_everything_ND, the branch of frob_ND_flint for several threads, OpenMP loop of frob_matrix_ND | ProgModel, NDCacheModel | C50–C52 |
| OpenMP loop over the columns in compute_reduction_matrix_ND | NDParModel | C52 |
| OpenMP loop of compute_reduction_matrix_J | ParModel | C32 |
| conv: ZZ <-> mpz/fmpz; flat mpz matrix routines of matrix/ | MpzModel | C11, C12 |
| matrix/trace.cc, charpoly.cc, charpoly_frob.cc | CharModel | C13–C15 |
| tools/default_args.cc | ArgsModel | C16 |
| wrapper/zeta_function.cc 50-98, 152-170 (precision logic, final step) | ZetaModel | C16, C43 |
| wrapper/zeta_function.cc 28-172 (whole function; one thread, no verbose output) | RunModel | C54 |
| tools.h map << and >>, NTL text formats, input overloads of zeta_function.cc 175-250 | IoModel | C44, C48 |
| solve_system/solve_system.cc, dr/isSmooth.cc (LU, gauss and inverse are arguments specified in SolveSpec; LuInst implements them as a witness) | SolveModel | C17, C18, C47 |
| dr_nd/dr_nd.cc 1740-1991: finitediff_flint_nmod (entries reduced; number of steps at most the modulus, as the powers are computed in one word) | FdModel | C33, C34 |
| dr_nd/dr_nd.cc 194-243, 358-1437: cokernel basis, relation matrix, reduction matrices, inclusion, conversion to the basis, monomial_to_basis_ND | NDModel | C35–C37, C53 |
| hypersurface_nd/hypersurface_nd.cc 56-825: frob_ND_ZZ, frob_ND_ZZ_p, frob_ND_flint (the branch for one thread), frob_matrix_ND | FrobNDModel | C24, C25, C38 |
| dr_nd/dr_nd.cc 1659-1736: isND, find_change_of_variables; matrix/random_SL_matric.cc (random numbers, gauss, LU and determinant are arguments) | ChangeModel | C45, C47 |
| tools/geometric_picard.cc 22-113 (the double of the loop condition, the factorisation and the cyclotomic polynomials are arguments with a specification) | PicardModel | C46, C49 |
| dr/test_paths_J.cc, dr/test_monomial_to_basis_J.cc, dr_nd/dr_nd.cc 1503-1656 (random numbers are an arbitrary list; tables of matrices and verbose output left out) | TestModel | C56, C59 |
| hypersurface/constructors.cc 6-21, hypersurface_nd/hypersurface_nd.cc 17-47 (objects), hypersurface/test/test_invariance_J.cc, hypersurface_nd/test/test_invariance_ND.cc, hypersurface_nd/test/test_JND_and_invariance.cc, hypersurface/test/test_K3p3.cc, wrapper/test/test_zeta_function.cc (printing left out; main functions included) | InvModel | C62 |
| wrapper/test/test_zeta_function.cc 14-46 with the comparison repaired, and the three recorded polynomials | ExpModel | C68 |
| matrix/charpoly_frob.cc 68-74: the assertion in floating point | FlModel | C69 |
| tools/geometric_picard.cc 51, 91: the loop condition in floating point | FlModel (fl_bound) | C69 |
| dr/test/*.cc, dr_nd/test/*.cc (messages and times left out) | TmainModel | C70 |
| timing.h 11-27, 58-69 (rounding left out) | TimeModel | C71 |
| examples/zeta_function_wrapper_genus3.cc, examples/zeta_function_wrapper_K3.cc (verbose output left out), examples/*.input | WrapModel | C72 |
| matrix.h 49-60, 112-147, 156-174, 183-207, matrix/mul_tranpose.cc 17-41, matrix/transpose_mul_tranpose.cc 17-41; the buffers of dr_nd/dr_nd.cc 830-846, 1939-1973 | MemModel | C67 |
| examples/frob.cc 41-297 (times and messages left out) | ExModel | C63 |
| examples/K3_dwork.cc 23-76, examples/K3_dwork2.cc 26-53 (messages left out) | DwModel | C64 |
| dr/constructors.cc 7-93, dr_nd/dr_nd.cc 19-102 (constructors from vectors, polynomials modulo p, random numbers) | CtorModel | C57 |
| dr/save.cc, file constructor of dr/constructors.cc, file operations of both save functions, lifetime of the modulus in frob_ND_flint | SaveModel | C39–C42 |
| text of save in dr_nd/dr_nd.cc 245-316, file constructor dr_nd/dr_nd.cc 104-192, tables after loading | SaveNDModel | C58 |

How the cohomology class is expressed: a functional `phi` on monomial forms
that satisfies all Griffiths-Dwork relations of f modulo q (`GD` in DRSpec.v).
"The class is preserved" means that every such functional takes the same value
(up to the stated factor) before and after.

For the non-degenerate routines `Phi w` is the value on
(m-1)! x^w Omega/(x0...xn f^m) and the relations are the logarithmic ones
(`LGD` in NDSpec.v).  Only the relations with exponents >= u are assumed, so the
statement covers forms with any pole orders along the coordinate hyperplanes.

How tables and threads are expressed: a routine is a program that issues
requests; `run (value ..)` answers each by recomputation, `srun (serve ..)`
answers from the tables as the code does, `threads_run` interleaves several
programs at the granularity of a request.  C31 shows that after the preparation
step no request writes to the tables, so that this granularity is not a
restriction; C51 shows the same for frob_matrix_ND.

The tables of tools/default_args.cc are transcribed as they are; their working
precisions for primes p < 2n+r (outside C43) are not the subject of a claim.

Not modelled: log output, memory exhaustion, integer overflow except
where a property is about it (C05, C27, C56, C71), the internals of NTL, FLINT, GMP and
OpenMP.

## Running the model (a test, not a proof)

The model was extracted to OCaml outside of /verif and run on inputs of the test
programs, to look for slips of transcription. Nothing in /verif depends on it.
For speed the extracted code was edited by hand: Z became zarith and nat became
int; the modular inverse became the extended Euclidean algorithm; lists became
arrays inside transpose, conv_mat, extended, newton, lu_step and solve_zz_p; the
matrices that the C++ keeps in maps are kept in tables. Linear algebra was lu_inst
and inv_fast, and zeta_function was called with find_better_model = false (the
tests use the default, true).

* test_K3p3: columns 0, 1, 2 and 20 of frob_J_ZZ, and column 0 of frob_J_ZZ_p,
  equal the table of the test. The other columns were not run to the end.
* test_zeta_function, genus3 (p = 17) and K3 (p = 23): equal to the recorded
  polynomials. genus3 was also run without the tables of matrices.
* test_zeta_function, dwork: with p = 23, as in the call, the result differs from
  the recorded polynomial; with p = 11 it is equal. See C68 for the proof that the
  record cannot belong to 23, and C62 for why the test does not notice.

## Mutation testing

`seeded/LOG.jsonl` records each edit of the model tried in a scratch copy, the claim
it makes false, the first lemmas that no longer compile and the theorems that are
lost with them.  A proof that fails is replaced by `Admitted` in the scratch copy,
so that independent failures are seen; the lost theorems are those that depend on a
failed lemma.

For the last 22 lines only the first failing proof was determined; they say so.

The first version of the script computed these dependencies from bare names, which
occur in several files.  Lists recorded with it contained theorems that do not depend
on the failed lemma.  They were recomputed from the .glob files; corrected lines carry
the field `correction` and four lines recorded twice were removed.  No line changed
from rejected to accepted.

## Assumptions

`Print Assumptions` answers "Closed under the global context" for every theorem
named in MANIFEST.json except those of C69: no axiom is used. The theorems of C69
are about real numbers; for them it lists the axioms of the standard library
`ClassicalDedekindReals.sig_not_dec`, `ClassicalDedekindReals.sig_forall_dec`,
`FunctionalExtensionality.functional_extensionality_dep` and `Classical_Prop.classic`
(per theorem below), and none of any other library.  `coqchk -o` additionally lists, as axioms, the constants that MathComp
and Coq.ssr.ssrunder seal behind opaque module signatures (for example
`mathcomp.ssreflect.bigop.BigOp.bigop`, `mathcomp.ssreflect.finset.SetDef.finset`,
`mathcomp.fingroup.perm.PermDef.perm`, `Coq.ssr.ssrunder.Under_rel.Under_rel`).
They are defined in those libraries; the checker sees only the signature.
MathComp is used only in the files that `Require` it: NewtonMC, CharMC, CharProps, ZetaProps
and those that import them.  Flocq is used only in FlIeee, FlPicard and FlProps.

| Property | Theorems | Assumptions |
|---|---|---|
| C01 | C01_less_is_lexicographic, C01_strict_total_order, C01_outside_contract, C01_map_history | none |
| C02 | C02_enumeration | none |
| C03 | C03_dictionary_inverts | none |
| C04 | C04_binomial, C04_binomial_ZZ | none |
| C05 | C05_binomial_silently_wrong_refuted, C05_binomial_right_iff | none |
| C06 | C06_legendre | none |
| C07 | C07_factorial_p_adic, C07_diverges_at_zero | none |
| C08 | C08_tweak, C08_tweak_add, C08_tweak_negative_diverges, C08_diff | none |
| C09 | C09_coefficients, C09_change_of_variables | none |
| C10 | C10_change_of_variables_monomial | none |
| C11 | C11_conversion, C11_round_trips | none |
| C12 | C12_product, C12_product_transpose, C12_scalar, C12_mat_vec, C12_conversion, C12_vectors, C12_non_square_refuted | none |
| C13 | C13_charpoly, C13_empty_refuted | none |
| C14 | C14_charpoly_frob | none |
| C15 | C15_sign_exactly_when, C15_sign_refuted | none |
| C16 | C16_table_consistent, C16_supported, C16_lift_unambiguous, C16_N_suffices, C16_constant_refuted | none |
| C17 | C17_solve_system_zz_p, C17_no_columns, C17_oracles_exist | none |
| C18 | C18_solve_system_padic, C18_de_Rham_solver, C18_old_matrix_refuted | none |
| C19 | C19_relation_matrix, C19_low_degree | none |
| C20 | C20_reduce_vector_preserves_class, C20_reduction_matrix_preserves_class | none |
| C21 | C21_poly_equals_steps | none |
| C22 | C22_inclusion_preserves_class, C22_final_reduction_preserves_class, C22_basis_wellformed | none |
| C23 | C23_monomial_to_basis | none |
| C24 | C24_ND_direction_exists, C24_direction_exists, C24_path_admissible | none |
| C25 | C25_ND_factorial_bookkeeping, C25_factorial_bookkeeping, C25_breaks_below | none |
| C26 | C26_frobenius_series, C26_frobenius_value | none |
| C27 | C27_series_coefficients, C27_code_computes_D, C27_no_overflow | none |
| C28 | C28_factor, C28_refuted | none |
| C29 | C29_fpow_history | none |
| C30 | C30_history_independent, C30_two_histories | none |
| C31 | C31_schedule_independent | none |
| C32 | C32_parallel_reduction_matrix | none |
| C33 | C33_finite_differences | none |
| C34 | C34_wrong_product_refuted, C34_assertion_refuted, C34_zero_polynomial_refuted | none |
| C35 | C35_reduce_vector_ND_preserves_class, C35_reduce_vector_ND_ZZ_preserves_class, C35_reduction_matrix_ND_preserves_class, C35_log_functionals, C35_points_refuted | none |
| C36 | C36_poly_equals_steps, C36_flint_equals_steps, C36_flint_refuted | none |
| C37 | C37_coKernels_to_basis_preserves_class, C37_monomial_to_basis_ND, C37_same_class_as_J | none |
| C38 | C38_direction, C38_reduce, C38_frobenius_series, C38_frobenius_value, C38_matrix | none |
| C39 | C39_safe_iff, C39_refuted | none |
| C40 | C40_short_names, C40_long_names_refuted | none |
| C41 | C41_load, C41_round_trip, C41_refuted | none |
| C42 | C42_marker, C42_complete, C42_refuted, C42_no_marker_refuted | none |
| C43 | C43_precision_logic, C43_default | none |
| C44 | C44_round_trip, C44_last_wins, C44_empty | none |
| C45 | C45_random_SL, C45_find_change | none |
| C46 | C46_exhaustive, C46_in_bounds | none |
| C47 | C47_isND, C47_isSmooth, C47_isSmooth_linear_refuted | none |
| C48 | C48_inputs_agree, C48_lengths | none |
| C49 | C49_count, C49_assertion | none |
| C50 | C50_history_independent, C50_monomial_to_basis, C50_reduce_vector_poly | none |
| C51 | C51_schedule_independent | none |
| C52 | C52_threads_branch, C52_slices, C52_parallel_columns | none |
| C53 | C53_constructor, C53_constructor_cubic, C53_dimension, C53_constructor_ND, C53_nd_smooth, C53_table_length, C53_quadric_char2_refuted | none |
| C54 | C54_arguments, C54_zeta_function, C54_words, C54_result, C54_not_lifted, C54_prime_divides_degree, C54_smooth_cubic_refuted | none |
| C55 | C55_functionals_exist, C55_coordinates_unique, C55_functionals_unique, C55_basis_independent, C55_J_and_ND_agree, C55_frobenius_modes_agree, C55_frobenius_methods_agree | none |
| C56 | C56_test_paths_J, C56_test_paths_ND, C56_test_paths_arguments, C56_test_monomial_to_basis_J, C56_test_monomial_to_basis_ND, C56_test_monomial_to_basis_negative, C56_test_always_true_refuted | none |
| C57 | C57_vector, C57_lift, C57_zero_terms, C57_random, C57_random_ND, C57_random_returns, C57_random_hangs, C57_random_small_degree, C57_random_returns_char2_refuted | none |
| C58 | C58_load, C58_resume, C58_resume_J, C58_other_lift_refuted | none |
| C59 | C59_paths_J_compared, C59_paths_ND_compared, C59_start_any, C59_path_J_value, C59_path_ND_value, C59_mtb_compared | none |
| C60 | C60_modes, C60_ZZ_p, C60_methods, C60_matrices, C60_zeta_matrix, C60_column_unique | none |
| C61 | C61_full_subtraction, C61_joined_rectangles, C61_nested_same, C61_flint_equals_steps, C61_fermat_cubic_refuted, C61_wrong_value_refuted, C61_branches_refuted | none |
| C62 | C62_invariance_J, C62_invariance_ND, C62_invariance_detects_refuted, C62_main_J, C62_main_ND, C62_main_all, C62_JND_all, C62_JND_ignores_J, C62_JND_detects_refuted, C62_main_JND, C62_K3p3, C62_K3p3_detects_refuted, C62_zeta_main, C62_zeta_detects_refuted, C62_JND_right, C62_transform, C62_JND_compares | none |
| C63 | C63_reads_general, C63_reads_short, C63_short_even_refuted, C63_last_newline_refuted, C63_empty_lines_refuted, C63_default_tries, C63_output_is_input, C63_general, C63_zero_refuted, C63_result, C63_precision_refuted | none |
| C64 | C64_polynomial, C64_smooth, C64_K3_dwork, C64_same_output, C64_result | none |
| C65 | C65_smooth, C65_nd, C65_isSmooth, C65_isND, C65_euler, C65_constructor, C65_zeta_function, C65_witness, C65_dwork | none |
| C66 | C66_basis, C66_sums, C66_digits, C66_range, C66_matrix, C66_matrix_ND | none |
| C67 | C67_mul, C67_sub, C67_products, C67_UXU, C67_word_loop, C67_finitediff, C67_aliased_refuted | none |
| C68 | C68_functional_equation, C68_divisible, C68_middle_refuted, C68_constant_term, C68_expected_divisible, C68_dwork_expected_refuted | none |
| C69 | C69_test, C69_charpoly_frob, C69_default, C69_ieee, C69_picard, C69_tie_refuted | sig_forall_dec, sig_not_dec, classic, functional_extensionality_dep |
| C70 | C70_reports, C70_paths_J, C70_basis_J, C70_paths_ND, C70_basis_ND | none |
| C71 | C71_timeval, C71_timespec, C71_parts, C71_parts_all_refuted | none |
| C72 | C72_genus3, C72_K3, C72_curve, C72_curve_modp, C72_surface, C72_dwork | none |
