{"id": "C01", "title": "long gcd and extended gcd", "statement": "For every pair of 64-bit longs other than the minimum value, gcd(a,b) returns the non-negative greatest common divisor (0 only for a=b=0), and bezout(a,b,x,y) returns the same g with a*x+b*y=g; neither call executes a signed overflow or a division by zero, and the Bezout coefficients are bounded by the inputs.", "quantifier": "all longs a,b in [-(2^63-1), 2^63-1]", "why_tests_cant": "2^128 input pairs; the loop depth and the intermediate coefficient sizes depend on the continued fraction of a/b, and overflow appears only on extremal pairs", "anchors": ["libsrc/arith.cc:gcd", "libsrc/arith.cc:bezout"]}
{"id": "C02", "title": "modular inverse on longs", "statement": "invmod(a,p) returns x with a*x congruent to 1 modulo p whenever gcd(a,p)=1 and returns 0 (with a message) otherwise, for every modulus; it never overflows.", "quantifier": "all longs a and all positive moduli p", "why_tests_cant": "the set of pairs is unbounded for tests and the failure path depends on gcd structure", "anchors": ["libsrc/arith.cc:invmod"]}
{"id": "C03", "title": "rounded division and canonical residues", "statement": "mod(a,b) returns the unique representative of a mod b in (-|b|/2, |b|/2], posmod(a,b) the unique one in [0,|b|), and rounded_division(a,b) the quotient q with -1/2 <= a/b-q < 1/2 (longs) - for every a and every non-zero b, without overflow on the documented domain; the bigint versions satisfy the same contract.", "quantifier": "all a and all b<>0 (longs in range; arbitrary integers for bigint)", "why_tests_cant": "ties, negative operands and extremal values are a measure-zero part of the input space; C++ truncating % and NTL flooring % differ only on negative operands", "anchors": ["libsrc/arith.cc:mod", "libsrc/arith.cc:posmod", "libsrc/arith.cc:rounded_division", "libsrc/marith.cc:mod", "libsrc/marith.cc:posmod", "libsrc/marith.cc:rounded_division", "libsrc/eclib/marith.h:roundover"]}
{"id": "C04", "title": "Gauss lattice reduction and rational reconstruction (long)", "statement": "modrat(n,m,a,b) terminates for every modulus, and when it reports success the result satisfies a congruent to n*b mod m with a,b within the bound; if some fraction within the bound exists it finds it (up to sign) and reports success.", "quantifier": "all n, all moduli m>0, all admissible bounds", "why_tests_cant": "uniqueness and completeness of reconstruction are universally quantified over all candidate fractions", "anchors": ["libsrc/arith.cc:gauss_reduce", "libsrc/arith.cc:modrat", "libsrc/arith.cc:new_modrat"]}
{"id": "C05", "title": "fast modular multiplication modulo the 30-bit prime", "statement": "For all a,b of absolute value below the default modulus p=1073741789 the fast product xmm0(a,b) is congruent to a*b modulo p, lies in the documented range, and no intermediate exceeds the 64-bit (resp. 32-bit) range; invmod0 returns a true inverse for every residue not divisible by p.", "quantifier": "all a,b with |a|,|b|<p", "why_tests_cant": "about 2^62 pairs, and correctness hinges on the error of a precomputed reciprocal at extremal operands", "anchors": ["libsrc/eclib/xmod.h:xmm0", "libsrc/eclib/xmod.h:xmodmul", "libsrc/eclib/xmod.h:invmod0", "libsrc/eclib/xmod.h:xmod0"]}
{"id": "C06", "title": "rationals are kept in lowest terms and arithmetic is exact", "statement": "Every rational produced by a constructor or arithmetic operator has positive denominator coprime to the numerator (so == is equality of fractions) and equals the mathematical sum/difference/product/quotient of its operands; for the long version this holds whenever no intermediate overflows, for bigrational always.", "quantifier": "all pairs of rationals", "why_tests_cant": "canonical form must hold after every operation sequence", "anchors": ["libsrc/eclib/rat.h:rational", "libsrc/eclib/bigrat.h:bigrational"]}
{"id": "C07", "title": "floor and ceil of rationals", "statement": "floor(q) is the largest integer <= q and ceil(q) the smallest integer >= q for every rational q, positive or negative, in both the long and bigint classes.", "quantifier": "all rationals q", "why_tests_cant": "sign/rounding behaviour differs between C++ and NTL division; only the negative non-integer case shows it", "anchors": ["libsrc/eclib/rat.h:floor", "libsrc/eclib/rat.h:ceil", "libsrc/eclib/bigrat.h:floor", "libsrc/eclib/bigrat.h:ceil"]}
{"id": "C08", "title": "Legendre/Kronecker symbols", "statement": "legendre(a,p) for an odd prime p is 0 if p divides a, 1 if a is a non-zero square mod p and -1 otherwise, for every a; kronecker(d,n) is multiplicative extension agreeing with it; long and bigint versions agree.", "quantifier": "all integers a and all odd primes p (resp. all odd positive moduli)", "why_tests_cant": "the algorithm uses quadratic reciprocity, the definition quantifies over square roots; agreement for all p is a number-theoretic theorem", "anchors": ["libsrc/arith.cc:leg", "libsrc/arith.cc:legendre", "libsrc/arith.cc:kronecker", "libsrc/marith.cc:legendre", "libsrc/marith.cc:kronecker"]}
{"id": "C09", "title": "mixed-type Kronecker symbol agrees with the bigint one", "statement": "kronecker(d,n) with a bigint d and long n returns the same value as the bigint/bigint version for every d and n.", "quantifier": "all d and n", "why_tests_cant": "d is reduced mod n first, which is only valid for some residue classes of n", "anchors": ["libsrc/marith.cc:kronecker(const bigint&, long)"]}
{"id": "C10", "title": "integer square roots of bigints", "statement": "isqrt(a,root) returns true exactly when a is the square of an integer and then root is the non-negative square root; the Newton iteration in sqrtnr terminates with floor(sqrt(a)).", "quantifier": "all integers a", "why_tests_cant": "unbounded integers; the residue pre-filter may only reject non-squares", "anchors": ["libsrc/marith.cc:isqrt", "libsrc/marith.cc:sqrtnr", "libsrc/marith.cc:sqrtq2"]}
{"id": "C11", "title": "square roots modulo prime powers and composite moduli", "statement": "sqrt_mod_2_power, sqrt_mod_p_power and sqrt_mod_m return x with x*x congruent to a modulo the modulus whenever they report success, and they report failure only when a (coprime to the modulus) has no square root; for every exponent.", "quantifier": "all a, all exponents, all factored moduli", "why_tests_cant": "the exponent is unbounded and completeness quantifies over all possible roots", "anchors": ["libsrc/marith.cc:sqrt_mod_2_power", "libsrc/marith.cc:sqrt_mod_p_power", "libsrc/marith.cc:sqrt_mod_m", "libsrc/marith.cc:modsqrt"]}
{"id": "C12", "title": "Chinese remaindering", "statement": "chrem(a1,a2,m1,m2) succeeds exactly when the two congruences have a common solution (coprime or not) and then returns a solution, the one in [0,lcm(m1,m2)) when m1*m2>0.", "quantifier": "all residues and all non-zero moduli", "why_tests_cant": "solvability quantifies over all integers", "anchors": ["libsrc/marith.cc:chrem"]}
{"id": "C13", "title": "valuations and removal of prime powers", "statement": "val(p,n) is the exact exponent of p in n for n<>0, divide_out(n,p) returns it and leaves n/p^val with p not dividing the rest, and both terminate for every |p|>=2.", "quantifier": "all n<>0 and |p|>=2", "why_tests_cant": "the exponent is unbounded", "anchors": ["libsrc/marith.cc:val", "libsrc/marith.cc:divide_out", "libsrc/arith.cc:val"]}
{"id": "C14", "title": "divisor enumeration is complete and duplicate free", "statement": "posdivs(a), given the prime factorisation, lists exactly the positive divisors of a, each exactly once; alldivs adds exactly the negatives; sqdivs lists exactly the d with d^2|a and sqfreedivs exactly the square-free divisors.", "quantifier": "all non-zero a and all correct prime lists", "why_tests_cant": "number of prime factors and exponents unbounded", "anchors": ["libsrc/arith.cc:posdivs", "libsrc/arith.cc:alldivs", "libsrc/arith.cc:sqdivs", "libsrc/arith.cc:sqfreedivs", "libsrc/marith.cc:posdivs"]}
{"id": "C15", "title": "prime table", "statement": "The prime table built for any limit contains exactly the primes up to the limit in increasing order; prime_number(i) is the i-th prime and prime_pi its inverse count; trial-division pdivs(n) returns exactly the primes dividing n.", "quantifier": "all limits and all n the table covers", "why_tests_cant": "the sieve is quantified over all limits", "anchors": ["libsrc/arith.cc:primeclass", "libsrc/arith.cc:prime_pi", "libsrc/arith.cc:pdivs"]}
{"id": "C16", "title": "narrowing conversions never silently truncate", "statement": "I2int and I2long return the exact value if it fits the type and otherwise the documented 0, never a wrapped value.", "quantifier": "all integers", "why_tests_cant": "unbounded domain, boundaries at +-2^31, +-2^63", "anchors": ["libsrc/interface.cc:I2int", "libsrc/interface.cc:I2long"]}
{"id": "C17", "title": "bigint Gauss reduction and rational reconstruction", "statement": "The bigint gauss_reduce returns a reduced basis of the same lattice and bigint modrat finds a fraction within the bound whenever one exists, just as the long versions do.", "quantifier": "all lattices / all n, m", "why_tests_cant": "an orientation error shows only when a swap happens with the wrong sign of the product", "anchors": ["libsrc/marith.cc:gauss_reduce", "libsrc/marith.cc:modrat"]}
{"id": "C18", "title": "dense vector and matrix algebra", "statement": "Vector and matrix +,-,*, scalar multiplication, transpose, concatenation and slicing agree with the mathematical operations on entries (and modular versions agree modulo p), whenever no entry overflows.", "quantifier": "all dimensions and entries", "why_tests_cant": "dimensions unbounded; index arithmetic on flat row-major arrays", "anchors": ["libsrc/vec.cc", "libsrc/mat.cc:operator*", "libsrc/mat.cc:transpose", "libsrc/mat.cc:matmulmodp"]}
{"id": "C19", "title": "modular echelon form", "statement": "echmodp(m,pcols,npcols,rk,ny,p) returns the reduced row echelon form of m mod p: the same row space mod p, pivot columns strictly increasing with identity there, rk = rank, and pcols/npcols partition the columns; for every matrix and prime p.", "quantifier": "all matrix sizes and entries, all primes p", "why_tests_cant": "row space equality quantifies over all combinations; sizes unbounded", "anchors": ["libsrc/mat.cc:echmodp", "libsrc/mat.cc:elimp", "libsrc/mat.cc:elimp1"]}
{"id": "C20", "title": "modular kernels", "statement": "pkernel(m,p) returns a basis of exactly the kernel of m modulo p (every column is annihilated, every kernel vector is a unique combination), with dimension ncols minus rank.", "quantifier": "all matrices and primes p", "why_tests_cant": "completeness quantifies over all kernel vectors", "anchors": ["libsrc/sub.cc:pkernel", "libsrc/sub.cc:oldpkernel"]}
{"id": "C21", "title": "fraction-free integer echelon form", "statement": "echelon(m,...) over the integers performs only exact divisions and returns a matrix with the same rational row space in reduced echelon shape with common pivot value d; kernel() built on it returns exactly the rational kernel.", "quantifier": "all integer matrices", "why_tests_cant": "exactness of Bareiss divisions and row space equality for all sizes", "anchors": ["libsrc/mat.cc:echelon0", "libsrc/mat.cc:echelon", "libsrc/sub.cc:kernel"]}
{"id": "C22", "title": "characteristic polynomial and determinant", "statement": "charpoly(m) returns the coefficients of det(xI-m) and determinant(m) the determinant for every square integer matrix; all internal divisions are exact.", "quantifier": "all n and all n x n integer matrices", "why_tests_cant": "n unbounded; Faddeev-LeVerrier identity", "anchors": ["libsrc/mat.cc:charpoly", "libsrc/mat.cc:determinant"]}
{"id": "C23", "title": "maxabs and lifting of dense modular matrices", "statement": "maxabs(m) is the largest absolute entry; liftmat(m,p,mm,dd) returning true yields integral mm and dd with mm congruent to dd*m mod p and small entries, for every liftable matrix.", "quantifier": "all matrices m and primes p", "why_tests_cant": "universally quantified over entries", "anchors": ["libsrc/mat.cc:maxabs", "libsrc/mat.cc:liftmat"]}
{"id": "C24", "title": "echelonp is reduced", "statement": "echelonp returns a matrix in reduced echelon form modulo p with exactly rank rows, like echelon.", "quantifier": "all matrices", "why_tests_cant": "back-substitution only matters for rank >= 2 with specific columns", "anchors": ["libsrc/mat.cc:echelonp"]}
{"id": "C25", "title": "sparse vectors refine dense vectors", "statement": "Every sequence of sparse vector operations (set, add, sub, erase, +=, -=, scalar multiples, add_scalar_times_mod_p, reduction) denotes the same vector as the dense operation, and two sparse vectors compare equal iff they denote the same vector.", "quantifier": "all operation histories and all values, including zero scalars", "why_tests_cant": "representation invariants must survive every history", "anchors": ["libsrc/svec.cc", "libsrc/eclib/svec.h"]}
{"id": "C26", "title": "sparse matrices refine dense matrices", "statement": "Sparse matrix operations (elem, row, setrow, +=, -=, products, transpose, conversion, ==) denote the dense operations and never write outside a row's storage, for any sequence of operations.", "quantifier": "all sizes, entries, operation histories", "why_tests_cant": "memory safety and refinement over all histories", "anchors": ["libsrc/smat.cc"]}
{"id": "C27", "title": "sparse elimination kernel", "statement": "Sparse elimination modulo p preserves the row space at each step for any pivoting order, and the reported rank and kernel are those of the original matrix modulo p.", "quantifier": "all sparse matrices, all pivot orders, all primes p", "why_tests_cant": "pivot order is data dependent; completeness quantifies over all kernel vectors", "anchors": ["libsrc/smat_elim.cc:sparse_elimination", "libsrc/smat_elim.cc:kernel", "libsrc/smat_elim.cc:eliminate"]}
{"id": "C28", "title": "ordered list insertion and removal", "statement": "The ordered integer lists used to track which rows meet a column behave as finite sets: put inserts, remove deletes, find locates, for every history, and no access leaves the allocated array.", "quantifier": "all operation histories", "why_tests_cant": "depends on stale memory contents after removals", "anchors": ["libsrc/smat_elim.cc:ordlist::put", "libsrc/smat_elim.cc:ordlist::remove", "libsrc/smat_elim.cc:list::find"]}
{"id": "C29", "title": "unimodular matrices", "statement": "Every unimod built by the public operations keeps determinant +1 or -1; m.inverse() returns the two-sided inverse and leaves m unchanged; shift/invert operations right-multiply by the documented elementary matrix.", "quantifier": "all matrices and histories", "why_tests_cant": "determinant -1 inputs are rare in practice", "anchors": ["libsrc/eclib/unimod.h"]}
{"id": "C30", "title": "form substitutions act by substitution", "statement": "Transforming a binary quadratic, cubic or quartic form by a 2x2 matrix yields the form whose value at (x,z) is the original value at the transformed point; consecutive transforms compose to the matrix product; x_shift/y_shift/invert agree with transform by the recorded matrix; discriminants (and I,J invariants of quartics) scale by the documented power of the determinant.", "quantifier": "all coefficient vectors and all matrices", "why_tests_cant": "polynomial identities over all integers", "anchors": ["libsrc/quadratic.cc", "libsrc/cubic.cc:transform", "libsrc/transform.cc:apply_transform"]}
{"id": "C31", "title": "reduction of positive definite quadratic forms", "statement": "quadratic::reduce terminates on every positive definite form, returns a reduced equivalent form (|b|<=a<=c) and the recorded unimodular matrix of determinant 1 carries the input form to the output.", "quantifier": "all positive definite integer forms", "why_tests_cant": "termination and reducedness for all inputs", "anchors": ["libsrc/quadratic.cc:reduce"]}
{"id": "C32", "title": "reduction of cubics of positive discriminant", "statement": "cubic::hess_reduce terminates on every integer cubic of positive discriminant, returns an SL(2,Z)-equivalent cubic via the recorded matrix, with Hessian reduced, and leaves the discriminant unchanged.", "quantifier": "all integer cubics of positive discriminant", "why_tests_cant": "termination/equivalence over all inputs", "anchors": ["libsrc/cubic.cc:hess_reduce", "libsrc/cubic.cc:normalise"]}
{"id": "C33", "title": "integral LLL", "statement": "lll_reduce terminates, replaces the basis by another basis of the same lattice, performs only exact divisions and ends with an LLL-reduced basis.", "quantifier": "all dimensions and all linearly independent integer bases, positive weights", "why_tests_cant": "unbounded dimensions; exactness and termination", "anchors": ["libsrc/illl.cc"]}
{"id": "C34", "title": "curve invariants", "statement": "For every integral Weierstrass equation the stored b2,b4,b6,b8,c4,c6 and discriminant are the standard ones (all divisions exact, 1728*disc=c4^3-c6^2, 4*b8=b2*b6-b4^2), singular equations give the null curve, and transform(r,s,t) leaves c4, c6 and the discriminant unchanged.", "quantifier": "all a1,a2,a3,a4,a6 and all r,s,t", "why_tests_cant": "polynomial identities over all integers", "anchors": ["libsrc/curvedata.cc:Curvedata", "libsrc/curvedata.cc:transform"]}
{"id": "C35", "title": "validity of (c4,c6)", "statement": "valid_invariants(c4,c6) is true exactly when some integral Weierstrass equation with non-zero discriminant has these invariants, and then Curve(c4,c6) is such an equation, with a1,a3 in {0,1} and a2 in {-1,0,1}.", "quantifier": "all integers c4,c6", "why_tests_cant": "Kraus's theorem: both directions quantify over all integers", "anchors": ["libsrc/curve.cc:valid_invariants", "libsrc/curve.cc:c4c6_to_ai"]}
{"id": "C36", "title": "minimal models", "statement": "minimise_c4c6 returns u>=1 with c4=u^4*c4', c6=u^6*c6', (c4',c6') again valid, and no larger scaling has valid invariants; the resulting Curvedata is an integral model isomorphic to the original via the returned (u,r,s,t).", "quantifier": "all valid c4,c6", "why_tests_cant": "minimality quantifies over all scalings", "anchors": ["libsrc/curve.cc:minimise_c4c6", "libsrc/curvedata.cc:minimalize"]}
{"id": "C37", "title": "points: canonical coordinates and closure of the group law", "statement": "Projective coordinates are kept coprime with Z>=0; negation, doubling and addition of points on the curve give points on the curve and realise the chord-tangent law on affine coordinates; addition is commutative with identity (0:1:0) and inverse -P.", "quantifier": "all curves and all pairs of points", "why_tests_cant": "polynomial identities subject to curve equations, all special cases", "anchors": ["libsrc/points.cc:operator+", "libsrc/points.cc:twice", "libsrc/points.cc:operator-", "libsrc/p2points.cc:reduce"]}
{"id": "C38", "title": "scalar multiples", "statement": "n*P equals the n-fold sum of P for every int n (negative included), i.e. binary double-and-add agrees with iterated addition.", "quantifier": "all points and all ints n", "why_tests_cant": "depends on associativity of the group law and on bit patterns of n", "anchors": ["libsrc/points.cc:operator*(int, const Point&)"]}
{"id": "C39", "title": "isomorphisms move points correctly", "statement": "transform(P,u,r,s,t) maps points of E onto points of the transformed curve, and the backwards transform inverts it.", "quantifier": "all curves, points, u<>0, r,s,t", "why_tests_cant": "polynomial identities", "anchors": ["libsrc/p2points.cc:transform", "libsrc/p2points.cc:scale", "libsrc/p2points.cc:shift", "libsrc/points.cc:transform"]}
{"id": "C40", "title": "points with given x-coordinate", "statement": "points_from_x(E,x) returns exactly the rational points of E with that x-coordinate, without duplicates.", "quantifier": "all curves and rationals x", "why_tests_cant": "completeness over all rational y", "anchors": ["libsrc/points.cc:points_from_x"]}
{"id": "C41", "title": "symbols of P^1(Z/N)", "statement": "The numbering of M-symbols is a bijection: index(symbol(i))=i for all i in range, symbol(index(c,d)) is equivalent to (c:d), and equivalent pairs get equal indices, for every level N.", "quantifier": "all levels N>1 and all coprime (c,d)", "why_tests_cant": "all levels; table construction uses gcd/inverse tables", "anchors": ["libsrc/symb.cc:symbdata", "libsrc/moddata.cc:moddata"]}
{"id": "C42", "title": "continued fraction expansion of modular symbols", "statement": "The symbols whose coordinates are summed for {0,n/d} telescope: consecutive convergents form unimodular pairs starting at 0 and ending at n/d, for every n and d, and the loop terminates.", "quantifier": "all n,d", "why_tests_cant": "unbounded expansion length", "anchors": ["libsrc/homspace.cc:add_coords", "libsrc/homspace.cc:add_proj_coords"]}
{"id": "C43", "title": "cusp equivalence", "statement": "cuspeq is reflexive, symmetric and transitive and decides Gamma_0(N)-equivalence; the cusp index is the same for equivalent cusps and different for inequivalent ones, for any order of insertion.", "quantifier": "all rationals and levels, all insertion histories", "why_tests_cant": "equivalence quantifies over all matrices in Gamma_0(N)", "anchors": ["libsrc/cusp.cc:cuspeq", "libsrc/cusp.cc:index"]}
{"id": "C44", "title": "thread pool runs every job exactly once", "statement": "If start() was called once and close() returns, every job posted before and during (by other jobs) has been executed exactly once, under any interleaving of the worker threads and the closing thread.", "quantifier": "all thread counts, all posted job sets, all interleavings", "why_tests_cant": "schedules", "anchors": ["libsrc/threadpool.cc", "libsrc/eclib/threadpool.h:post"]}
{"id": "C45", "title": "thread pool can be restarted", "statement": "After close(), calling start() again makes the pool usable: jobs posted then are executed before the next close() returns (as the comment on start() promises).", "quantifier": "all histories of start/post/close", "why_tests_cant": "history dependent state of the job service", "anchors": ["libsrc/threadpool.cc:start", "libsrc/threadpool.cc:close"]}
{"id": "C46", "title": "search-tree nodes are retired exactly once", "statement": "In multithreaded eigenform search, when the last child of a node finishes, the node itself is retired by exactly one thread and no thread touches a node after it is freed, under any interleaving.", "quantifier": "all interleavings of finishing children", "why_tests_cant": "race between unlock and the completion test", "anchors": ["libsrc/xsplit.cc:go_up", "libsrc/xsplit_data.cc:eraseChild", "libsrc/xsplit_data.cc:complete"]}
{"id": "C47", "title": "search results do not depend on the schedule", "statement": "The multiset of eigenvalue systems (with their basis vectors in matching positions) stored by the multithreaded search equals that of the sequential search, under any interleaving.", "quantifier": "all search trees and schedules", "why_tests_cant": "schedules", "anchors": ["libsrc/xsplit.cc:find", "libsrc/xsplit.cc:store"]}
{"id": "C48", "title": "command line parsing", "statement": "Repeated calls of the option scanner return the options in order with their arguments, terminate, and leave a permutation of argv with the operands in their original order after the options; no undefined behaviour occurs.", "quantifier": "all argument vectors and option strings", "why_tests_cant": "argument permutations of any length", "anchors": ["libsrc/GetOpt.cc"]}
{"id": "C49", "title": "conic solver returns solutions", "statement": "solve_conic(a,b,c,d,...) returning 1 yields a non-trivial integer solution of a*x^2+b*x*z+c*z^2=d*y^2 for every method, and returns 0 only when none exists.", "quantifier": "all a,b,c,d with a,c,d,b^2-4ac non-zero, all methods", "why_tests_cant": "recursion depth unbounded; solubility quantifies over all integers", "anchors": ["libsrc/conic.cc:solve_conic", "libsrc/conic.cc:solve_conic_diag"]}
{"id": "C50", "title": "F_2 vector space bookkeeping", "statement": "A bitspace of dimension d up to 64 represents the span of the vectors added: augment(v) returns 1 iff v was not already in the span, reduce(v) returns -1 iff v is in the span.", "quantifier": "all d<=64 and all sequences of added vectors", "why_tests_cant": "history and word-size dependent", "anchors": ["libsrc/bitspace.cc", "libsrc/eclib/bitspace.h:testbit"]}
{"id": "C51", "title": "square-free decomposition", "statement": "sqfdecomp(a,plist) writes a as a1*a2^2 with a2>0 and a1 square-free carrying the sign, and lists exactly the primes dividing a1, for every non-zero a.", "quantifier": "all non-zero a and every list of distinct primes containing those dividing a", "why_tests_cant": "numbers with arbitrarily many primes and exponents", "anchors": ["libsrc/marith.cc:sqfdecomp"]}
{"id": "C52", "title": "coprime decomposition of two integers", "statement": "rusin_lem3(a,b) terminates and writes a=c1^2*m1*m3, b=c2^2*m2*m3 with m1,m2,m3 pairwise coprime and m3,c1,c2 positive, for all non-zero a,b.", "quantifier": "all non-zero integers", "why_tests_cant": "no bound on the number of loop iterations", "anchors": ["libsrc/marith.cc:rusin_lem3"]}
{"id": "C53", "title": "roots of a monic cubic modulo p", "statement": "nrootscubic(b,c,d,p) lists exactly the roots of x^3+bx^2+cx+d modulo p, in increasing order; when there are three of them they are the roots with multiplicity.", "quantifier": "all reduced coefficients and all primes up to 2^20", "why_tests_cant": "the root set depends on every prime", "anchors": ["libsrc/marith.cc:nrootscubic"]}
{"id": "C54", "title": "trial division leaves only large primes", "statement": "pdivs_trial_div(n,pmax) returns distinct primes and a cofactor such that the primes dividing n are exactly the listed ones together with those of the cofactor, which is free of the primes tried.", "quantifier": "all n>=1 and every initial segment of the primes", "why_tests_cant": "all n", "anchors": ["libsrc/marith.cc:pdivs_trial_div"]}
{"id": "C55", "title": "intlog2 recognises powers of two", "statement": "intlog2(n,e,roundup) returns 1 exactly when n is a power of two, with e its exponent, and rounds n up to the next power when asked, for every positive long n without undefined behaviour.", "quantifier": "all positive longs", "why_tests_cant": "the failure needs n>=2^31", "anchors": ["libsrc/arith.cc:intlog2"]}
{"id": "C56", "title": "jc_reduce records its transformation", "statement": "cubic::jc_reduce leaves in m a matrix of determinant 1 carrying the input cubic to the reduced one.", "quantifier": "all integer cubics of negative discriminant", "why_tests_cant": "the record is lost only on the a=0 branches and odd numbers of inversions", "anchors": ["libsrc/cubic.cc:jc_reduce"]}
{"id": "C57", "title": "equivalence tests for cubics of positive discriminant", "statement": "sl2_equivalent (gl2_equivalent) answers 1 exactly when some integer substitution of determinant 1 (of determinant 1 or -1) carries one cubic to the other.", "quantifier": "all integer cubics f of positive discriminant, all integer cubics g", "why_tests_cant": "completeness quantifies over all of SL(2,Z)", "anchors": ["libsrc/cubic.cc:sl2_equivalent", "libsrc/cubic.cc:gl2_equivalent"]}
{"id": "C58", "title": "syzygy, doubling and resultant identities", "statement": "The seminvariants of a quartic satisfy the syzygy -H^3+48a^2IH-64a^3J-27R^2=0; doubleup substitutes 2z and scales I,J,disc by 2^4,2^6,2^12; the resultant of two binary quadratics equals the Bezout determinant and vanishes when they share a root.", "quantifier": "all integer coefficients", "why_tests_cant": "polynomial identities over all integers", "anchors": ["libsrc/eclib/mquartic.h", "libsrc/quadratic.cc:resultant"]}
{"id": "C59", "title": "good reduction of points", "statement": "has_good_reduction(p) holds exactly when some partial derivative of the projective Weierstrass cubic is nonzero modulo p at the point.", "quantifier": "all curves, primes p and points in lowest terms", "why_tests_cant": "all primes and points; the identity and the coordinates divisible by p are special cases", "anchors": ["libsrc/points.cc:has_good_reduction"]}
{"id": "C60", "title": "number of worker threads", "statement": "start(numThreads) creates one worker less than the smaller of numThreads and the number of hardware threads (numThreads = 0 meaning all), and never more than the number of hardware threads.", "quantifier": "all numThreads, all values of hardware_concurrency() including 0 (unknown)", "why_tests_cant": "depends on the host", "anchors": ["libsrc/threadpool.cc:start"]}
{"id": "C61", "title": "restriction of operators to subspaces", "statement": "restrict_mat(M,S) returns A with den*M*B = B*A whenever the subspace S with basis B (den times the identity at the pivots) is invariant under M; prestrict does the same modulo p.", "quantifier": "all matrices, all invariant subspaces including the whole space, all denominators", "why_tests_cant": "Invariance over Q of an arbitrary subspace cannot be enumerated; the special case of the whole space with a denominator is not reached by examples.", "anchors": ["libsrc/sub.cc:restrict_mat", "libsrc/sub.cc:prestrict"]}
{"id": "C62", "title": "Square-free divisor classes: subgroup, coset representatives, class numbers", "statement": "Class sqfdiv, given d and a list of distinct primes, maintains after any sequence of usediv calls a duplicate-free list of representatives of the subgroup of (group generated by -1 and the primes dividing d) modulo squares generated by the arguments, and getdivs returns representatives of its cosets: every element of the group is, up to squares, the product of exactly one entry of each; getsupp generates getdivs; makeindex/makenum number the classes and are inverse to each other.", "quantifier": "all prime lists, all d, all call sequences, all support lists of any length", "why_tests_cant": "The pivots chosen depend on the history of elements; wrong pivots lose or duplicate a coset only for particular sequences, and the array bounds depend on the number of primes.", "anchors": ["libsrc/sqfdiv.cc:29-203", "libsrc/eclib/sqfdiv.h"]}
{"id": "C64", "title": "local solubility test for conics", "statement": "testlocsol(a,alist,b,blist,c,clist) returns true exactly when a*x^2+b*y^2+c*z^2=0 has a non-zero integer solution, for square-free pairwise coprime a,b,c with their prime lists, and testlocsol(a,alist,b,blist) returns true exactly when x^2-a*z^2=b*y^2 has one, for square-free a,b.", "quantifier": "all square-free integers of every size", "why_tests_cant": "insolubility quantifies over all integers; the equivalence is Legendre's theorem", "anchors": ["libsrc/conic.cc:testlocsol"]}
{"id": "C65", "title": "The local solubility test for quartics decides solubility over Q_p", "statement": "For every prime p and integers a..e with nonzero discriminant, qpsoluble(a,b,c,d,e,p) ends and returns 1 exactly when y^2 = a x^4 + b x^3 z + c x^2 z^2 + d x z^3 + e z^4 has a point over Q_p (p-adic integers x, z not both divisible by p, and y); when it returns 0 there is a power of p modulo which there is no such point. In particular for p = 2. psquare decides whether an integer is a square in Z_p. (With zero discriminant the recursion need not end.)", "quantifier": "all integers a..e with nonzero discriminant, all primes p", "why_tests_cant": "the criteria lemma6/lemma7 are about infinitely many x in a residue class, and the depth of the recursion is not bounded by any constant; a wrong boundary in one of the inequalities only shows on quartics with special valuations", "anchors": ["libsrc/mlocsol.cc:50-162"]}
{"id": "C66", "title": "The Hilbert symbols decide local and global solubility of a x^2 + b y^2 = z^2", "statement": "For non-zero a, b and p a prime or 0 (the reals) local_hilbert(a,b,p) is 0 if a x^2 + b y^2 = z^2 has a non-trivial solution over Q_p (R for p = 0) and 1 if not. global_hilbert is 0 exactly when there is a non-trivial solution in integers, and otherwise it is 1 and badp is a place where there is no local solution; the entry for a conic a x^2 + b x z + c z^2 = d y^2 does so using only the primes dividing d and the discriminant.", "quantifier": "all non-zero integers a, b, all primes and the real place; all conics with a, d and discriminant non-zero", "why_tests_cant": "the statement is about solutions in p-adic fields and, globally, is the theorem of Hasse and Minkowski; a wrong sign rule at 2 or a missing prime only shows for coefficients in particular square classes", "anchors": ["libsrc/hilbert.cc:32-106", "libsrc/eclib/hilbert.h:39-43"]}
{"id": "C67", "title": "Siksek's test for large primes decides solubility of quartics over Q_p", "statement": "For every prime p and integers a..e with nonzero discriminant new_qpsoluble(a,b,c,d,e,p) ends and returns 1 exactly when y^2 = a x^4 + b x^3 z + c x^2 z^2 + d x z^3 + e z^4 has a point over Q_p, provided the factorisation of polynomials modulo p is correct. In particular local_sol never misses a point although it looks only at multiple roots modulo p and at the class of one coefficient, and it gives the same answer as qpsoluble, which tries all residues.", "quantifier": "all integers a..e with nonzero discriminant, all primes p", "why_tests_cant": "for large p the statement that a non-square polynomial takes a square value rests on a theorem about all primes; the residues are too many to try, and the recursion has no constant bound on its depth", "anchors": ["libsrc/mlocsol.cc:207-440"]}
{"id": "C68", "title": "Rsoluble and locallysoluble decide solubility over the reals and everywhere locally", "statement": "For integers a,b,c,d,e with nonzero discriminant, Rsoluble answers 1 exactly if y^2 = a x^4 + b x^3 z + c x^2 z^2 + d x z^3 + e z^4 has a real point. For every list of primes locallysoluble ends; its answer 1 means a point over R and over each Q_p in the list, its answer 0 means no point over R (badp = 0) or over Q_badp. If the list contains 2 and the primes dividing the discriminant the answer is right for all places at once: an odd prime of good reduction never obstructs. The preliminary Hilbert-symbol test for b = d = 0 never rejects a soluble quartic. For a zero discriminant Rsoluble can be wrong.", "quantifier": "all integers a,b,c,d,e with nonzero discriminant, all lists of primes", "why_tests_cant": "Real and p-adic solubility quantify over infinite fields, and the claim that all other primes are harmless is about infinitely many primes.", "anchors": ["libsrc/mlocsol.cc:161-206", "libsrc/mquartic.cc:57-80", "libsrc/eclib/mquartic.h:30-45"]}
{"id": "C69", "title": "Tate's algorithm finds the reduction type, conductor exponent and Tamagawa number at every bad prime", "statement": "For every integral curve with nonzero discriminant the constructor CurveRed(Curvedata) ends without error. It passes to the minimal model, its table has exactly one entry for each prime dividing the minimal discriminant, and for each p some integral change of coordinates puts the minimal model in the normal form of a Kodaira type K (Silverman, Advanced Topics IV.9.4); the stored code is that of K, ord_p_discr is the valuation of the discriminant, ord_p_N is given by Ogg's formula, ord_p_j_denom is the power of p in the denominator of j, and c_p is the number of rational components. The type, the Tamagawa number and the whole entry do not depend on the integral model. The conductor is the product of p^ord_p_N.", "quantifier": "all curves with nonzero discriminant, all bad primes including 2 and 3, all types I*m with m unbounded", "why_tests_cant": "The algorithm is a long case distinction with hand-derived shifts, special code for p = 2 and 3, and a loop of unbounded length for I*m; a table of curves exercises only finitely many primes and m, and cannot show that the answer is independent of the model.", "anchors": ["libsrc/curvered.cc:59-93", "libsrc/curvered.cc:112-330", "libsrc/eclib/curve.h:195-260"]}
{"id": "C70", "title": "Tamagawa numbers and exponents", "statement": "After CurveRed: local_Tamagawa_number is c_p at the bad primes, 1 at the good primes and the number of real components for p = 0; global_Tamagawa_number is their product; local_Tamagawa_exponent is the exponent of the component group; global_Tamagawa_exponent is the lcm of the local exponents (comment, lines 350-354). The last claim is false: for I0* with c_p = 1 the factor 2 is used, so that y^2 = x^3 + 686, all of whose component groups are trivial, gets exponent 2 and Tamagawa prime 2. It holds if no such prime occurs, and in general the result is a multiple of the lcm that divides twice the lcm.", "quantifier": "all tables of reduction data with one entry per bad prime", "why_tests_cant": "The wrong factor only shows for a type I0* whose cubic has no root modulo p and when no other group has even exponent.", "anchors": ["libsrc/curvered.cc:332-442"]}
{"id": "C71", "title": "Baby-step giant-step finds a discrete logarithm exactly if there is one", "statement": "my_bg_algorithm(P,Q,lower,upper) returns h with lower <= h <= upper and hP = Q if there is such an h, and -1 otherwise.", "quantifier": "For all finite or infinite abelian groups with an x-coordinate that separates points up to sign, all points P, Q and all 0 <= lower <= upper.", "why_tests_cant": "Table entries i are overwritten by later multiples with the same x-coordinate (-i, or i plus the order of P), and the number of baby steps is capped; whether a solution can be lost depends on the order of P against the size of the table.", "anchors": ["libsrc/pointsmod.cc:440-564"]}
{"id": "C72", "title": "Orders of points and merging of points are right", "statement": "operator*(n,P) is the n-fold sum; my_order_point(P,mult) is the order of P when mult > 0 kills P; my_order_point(P,lower,upper) and my_order_point(P) are the order when a multiple in the interval (Hasse interval) kills P; set_hasse_bounds is exactly the set of n with (q+1-n)^2 <= 4q; tidy_lcm returns coprime divisors with the same lcm; merge_points_1 returns a point of order lcm.", "quantifier": "For all abelian groups, all points, all integers mult > 0, m, n > 0, q >= 2.", "why_tests_cant": "The loops run over all prime divisors and the correctness of tidy_lcm depends on the exponents of all common primes.", "anchors": ["libsrc/pointsmod.cc:201-228", "libsrc/pointsmod.cc:566-592", "libsrc/pointsmod.cc:645-735"]}
{"id": "C73", "title": "linear_relation returns the least relation", "statement": "linear_relation(P,Q,a) returns the least m > 0 with mQ in <P>, and mQ = aP; if <P> and <Q> are disjoint then m = order(Q) and a = 0.", "quantifier": "For all abelian groups and all points P, Q killed by an integer in the Hasse interval.", "why_tests_cant": "Minimality quantifies over all relations; the early exit for coprime orders is taken only for such orders.", "anchors": ["libsrc/pointsmod.cc:597-643"]}
{"id": "C74", "title": "my_isomorphism_type returns a basis of the group of points", "statement": "If my_isomorphism_type returns (n1,n2,P1,P2) then P1 and P2 have orders n1 and n2, n2 divides n1, P1 and P2 are independent and generate the group; merge_points_2 keeps P2 independent of P1.", "quantifier": "For all groups whose order is in the Hasse interval, all sequences of random points.", "why_tests_cant": "The result depends on the sequence of random points and the intermediate points P2 are not always independent of P1; the correctness of the final result needs an argument for each prime.", "anchors": ["libsrc/pointsmod.cc:737-1012"]}
{"id": "C75", "title": "ComponentGroup gives the structure of the component group", "statement": "ComponentGroups::ComponentGroup(p) returns the invariants of the group of rational components at p: [m] if it is cyclic of order m and [2,2] if it is not cyclic; [1] for a prime of good reduction and the number of real components for p=0.", "quantifier": "all curves in the state left by Tate's algorithm, all primes and p=0", "why_tests_cant": "The type I*m, m even, with fewer than 4 rational components is rare among small curves and the callers mostly tolerate the wrong answer.", "anchors": ["libsrc/egr.cc:35"]}
{"id": "C76", "title": "egr_subgroup replaces points by generators of the subgroup of good reduction and returns its index", "statement": "For points P1..Pr, gr1prime(p) (and grprimes over several primes, and egr_subgroup over all bad primes and optionally the reals) replaces the list by one of the same length generating exactly the subgroup of <P1,..,Pr> of the points with good reduction at p (at all the primes), and returns the index of that subgroup; no error value is returned. OrderInComponentGroup is the order of the image in the component group.", "quantifier": "all abelian groups, all lists of points, all component maps, cyclic of any order up to 46340 or 2*2", "why_tests_cant": "The exchange steps (lcm of orders, search for a unit u, third coset) only fail for special combinations of orders and components at several primes.", "anchors": ["libsrc/egr.cc:218", "libsrc/egr.cc:252", "libsrc/egr.cc:456", "libsrc/egr.cc:472"]}
{"id": "C77", "title": "egr_index is the index of the points of everywhere good reduction", "statement": "comp_map_image(moduli, m) is the order of the subgroup of the product of the Z/m_j generated by the rows; egr_index, applying it to the images from MapPointsToComponentGroup, is the index in <P1,..,Pr> of the subgroup of points with good reduction at all the primes.", "quantifier": "all matrices and moduli; all groups, points and component maps", "why_tests_cant": "The images at a prime with component group of order 3 or 4 are only known up to sign; an error in the choice of signs shows only with two such primes and suitable points.", "anchors": ["libsrc/egr.cc:489", "libsrc/egr.cc:589", "libsrc/egr.cc:694"]}
{"id": "C78", "title": "Division polynomials and multiplication-by-n polynomials are right for every n", "statement": "div_pol/division_polynomial, mul_by_n_num, mul_by_n_den and division_points_X_pol return, for every n >= 1 and every curve with nonzero discriminant, polynomials with the meaning their names promise: the n-th division polynomial vanishes at the abscissa of a rational point P exactly when nP = 0 (for even n > 2: and 2P is not 0), its degree and leading coefficient are the expected ones; num/den is the abscissa of nP, den vanishes exactly when nP = 0, and they never vanish together; the division polynomial of P = (xP/zP, .) has the roots x(Q) with nQ = P or nQ = -P.", "quantifier": "all curves over Z with nonzero discriminant, all n >= 1, all rational points (of finite or infinite order)", "why_tests_cant": "The recursion goes through n/2 with case distinctions on two parities; a wrong power of psi_2 or sign shows only for some residue of n modulo 4, and correctness for all n rests on the identities of elliptic divisibility sequences.", "anchors": ["libsrc/divpol.cc:34-156"]}
{"id": "C79", "title": "order(P) ends for every point and recognises exactly the torsion points", "statement": "For every point P on a curve with nonzero discriminant, given by reduced coordinates, order(P) terminates; it returns n > 0 exactly when P has finite order n, and -1 exactly when P has infinite order, although it gives up as soon as a multiple has Z > 8. Points of finite order at least 3 have integer coordinates, points of order 2 have denominators dividing 4 and 8.", "quantifier": "all curves over Z with nonzero discriminant, all rational points", "why_tests_cant": "The early exit is only right because no torsion point whatever has a larger denominator, and termination for points of infinite order is a statement about infinitely many multiples.", "anchors": ["libsrc/points.cc:195-209"]}
{"id": "C80", "title": "Root finding returns exactly the rational (integer) roots", "statement": "roots(f) returns every rational root of f exactly once, in lowest terms with positive denominator and in increasing order, and nothing else; introots(f), Introotscubic, Introotsquartic return exactly the integer roots in increasing order; roots(coeffs) does so for coefficients listed with the leading one first.", "quantifier": "all nonzero integer polynomials, any factorisation into irreducibles", "why_tests_cant": "Repeated factors, non-monic factors and the root 0 need particular polynomials; completeness is about all rationals.", "anchors": ["libsrc/polys.cc:67-101", "libsrc/polys.cc:105-120", "libsrc/polys.cc:122-143", "libsrc/polys.cc:149-168"]}
{"id": "C81", "title": "two_torsion, three_torsion and m_torsion list exactly the points asked for", "statement": "two_torsion(E,exact), three_torsion(E,exact) and m_torsion(E,m,exact) return, for every curve, every rational point killed by m (exact = 0) or of order exactly m (exact = 1), each exactly once, with reduced coordinates, sorted by order, denominator, X, Y; the calls end.", "quantifier": "all curves over Z with nonzero discriminant, all m that fit an int, both values of exact", "why_tests_cant": "Completeness is a statement about all rational points of all curves; the functions only look for integral points and integral roots. The wrong cases need non-standard models or even m without exact.", "anchors": ["libsrc/points.cc:293-307", "libsrc/points.cc:356-392", "libsrc/points.cc:398-456", "libsrc/points.cc:458-505"]}
{"id": "C82", "title": "torsion_points returns the whole torsion subgroup, division_points all Q with mQ = P", "statement": "Let E be a nonsingular integral Weierstrass curve whose rational torsion subgroup is one of the fifteen groups of Mazur's theorem, with a1 or a3 odd or both zero. Then torsion_points(E) terminates and returns every rational torsion point of E exactly once, sorted by order, Z, X, Y. For a torsion point P and m nonzero, P.division_points(m) returns exactly the rational points Q with m*Q = P; for a point P of infinite order and m >= 1 it does so on every nonsingular curve. For a1 even and not both a1, a3 zero torsion_points can return repeated points; for m <= 0 and P of infinite order division_points does not return.", "quantifier": "for all integral nonsingular curves, all points P on them, all ints m other than the least, and any NTL factorisation satisfying its contract", "why_tests_cant": "the claim is completeness over the infinite set of rational points: no test can show that a list contains every torsion point or every m-th part of a point for all curves; the order in which the exponents 12,6,8,4,10 are tried matters only on curves with particular torsion", "anchors": ["libsrc/points.cc:507-585", "libsrc/points.cc:588-623", "libsrc/divpol.cc:150-156"]}
{"id": "C83", "title": "twoisog and threeisog return the curves isogenous to E by Velu's formulas, one for each rational kernel", "statement": "Let E be a nonsingular integral Weierstrass curve in reduced form (a1 or a3 odd, or both zero, as in every CurveRed). twoisog(E) terminates and returns exactly one curve E' for each rational point T of order 2, and threeisog(E) exactly one for each subgroup {O,T,-T} of order 3 whose abscissa x(T) is rational (on any nonsingular model). Each E' is in reduced minimal form and there is a map with rational coefficients (Velu's map followed by a change of coordinates) which over every field of characteristic 0 sends points of E to points of E', is a homomorphism for the chord-and-tangent law, and has kernel exactly {O,T}, respectively {O,T,-T}. In particular the raw curves are never singular, so minimalisation never sees a zero discriminant, and the division in x = 4X(T)/Z(T) is always exact.", "quantifier": "for all integral nonsingular curves in reduced form, all fields of characteristic 0 and all their points", "why_tests_cant": "a test can only compare a few curves with tables; that the displayed coefficient formulas give an isogenous curve for every curve, with a homomorphism of the right kernel over every field, is an algebraic identity in unbounded data, and completeness (no rational kernel is missed) is a universal statement.", "anchors": ["libsrc/isogs.cc:442-474", "libsrc/isogs.cc:476-507", "libsrc/points.cc:398-422"]}
{"id": "C84", "title": "IsogenyClass::grow returns the whole isogeny class, each curve once, with the right isogeny matrix", "statement": "Let lisog(c,l) be any function giving the curves l-isogenous to c, and suppose the set of curves reached from C by l-isogenies, l in the list of primes, has at most MAXNCURVES = 26 elements. Then the constructor followed by grow terminates without writing outside the matrix; the list of curves starts with C, has no repetitions, and consists of the curves reached from C by steps of which all but those from C itself use only primes l with an l-isogeny from C. If every prime with an isogeny from some curve of the class has one from C, this is the whole closure. For k > 0, fromlist[k] < k and curve k is isoglist[k]-isogenous to curve fromlist[k]. getmatij is symmetric and its nonzero entries are degrees of isogenies between the two curves; if l-isogeny is symmetric and the degree is determined by the pair, then entry (i,j) is l exactly when curves i and j are l-isogenous. The bound 26 is sharp: a star of 27 curves overruns the matrix. A second call of grow sets ncurves to 1 and so does not keep the class.", "quantifier": "for all functions lisog, all curves, all lists of nonzero primes and all classes of at most 26 curves", "why_tests_cant": "tests run a few classes of elliptic curves with at most 8 curves; that the breadth-first search with its duplicate check, its pruning of the list of primes after the first curve and its filling of the matrix from both sides is right for every isogeny graph is a statement about an unbounded set of graphs.", "anchors": ["libsrc/isogs.cc:244-342", "libsrc/isogs.cc:344-440"]}
{"id": "C85", "title": "getelllist tries exactly the primes of Mazur's list which the j-invariant allows", "statement": "For a curve with discriminant nonzero, c4, conductor N and flag ss = semistable: getelllist returns without repetition 2, 3, 5, 7 and, if the curve is not semistable, 13, and further 11 exactly if j is -2^15, -11^2 or -11*131^3, 17 exactly if 17 divides N and j is -17^2*101^3/2 or -17*373^3/2^17, 37 exactly if j is -7*11^3 or -7*137^3*2083^3, and 19, 43, 67, 163 exactly if j is the integral CM j-invariant of that discriminant. Here j = n/d means c4^3 d = n disc, whatever common factors and signs c4^3 and disc have.", "quantifier": "for all c4, all nonzero discriminants of either sign, all N", "why_tests_cant": "the comparison is made after dividing by the gcd and normalising the sign of the denominator (a bug was once found here, says a comment); only a proof covers all the ways in which c4^3/disc can fail to be in lowest terms.", "anchors": ["libsrc/isogs.cc:174-242"]}
{"id": "C63", "title": "Lifting of sparse matrices from F_p to Q", "statement": "If a sparse matrix modulo p is the reduction of a rational matrix whose numerators and denominators are below sqrt(p/2), liftmat(mm,p,m,dd) returns 1 with an integral matrix m and dd > 0 such that m/dd is that rational matrix; it returns 0 exactly if some entry is not such a fraction. liftmats_chinese does the same for two moduli.", "quantifier": "for all sparse matrices, all primes p and all scalar types int and long", "why_tests_cant": "the entries of the kernel modulo p are lifted by rational reconstruction entry by entry with a common denominator; that the result is right for every matrix needs the uniqueness of the reconstruction and the size of all products, which no test covers.", "anchors": ["libsrc/smat.cc:901-949", "libsrc/smat.cc:953-1000", "libsrc/smat.cc:877-887", "libsrc/homspace.cc:242", "libsrc/homspace.cc:357"]}
{"id": "C86", "title": "minim_p divides the invariants of a quartic by p^4 and p^6", "statement": "For a quartic g whose invariants satisfy p^4 | I and p^6 | J, minim_p returns an integral quartic with invariants I/p^4 and J/p^6, all its divisions are exact, and the scaled matrix it maintains takes the original quartic to the new one; failure (0) is possible only for p = 2, where the quartic and matrix are still consistent and, as the comments say, only under the stated exceptions.", "quantifier": "for all quartics, all primes p, all starting matrices", "why_tests_cant": "The multiple root modulo p is found by invariant theory and the exactness of six divisions follows from congruences between I, J and the coefficients; tests sample quartics from descent, which are locally soluble, and never see the inputs for which the comment is wrong.", "anchors": ["libsrc/minim.cc:30-292", "libsrc/transform.cc:92-119", "libsrc/eclib/unimod.h:125-127"]}
{"id": "C87", "title": "minim_all returns a minimal quartic with its invariants and matrix", "statement": "minim_all ends for every list of primes; the I and J it returns are the invariants of the quartic it returns, they are the original ones divided by n^4 and n^6, the matrix takes the original quartic to the result, and at every p >= 5 of the list the result is minimal (p^4 | I and p^6 | J do not both hold when assuming local solubility, p^8 and p^12 otherwise).", "quantifier": "for all quartics, all lists of primes, both values of assume_locsol", "why_tests_cant": "The code tracks valuations by subtraction and uses 1000 for the valuation of 0; whether this and the termination are right for all valuations and lists of primes is not visible from samples.", "anchors": ["libsrc/minim.cc:294-376"]}
{"id": "C88", "title": "Isogeny class codes are a bijection with the class numbers, in order", "statement": "new_codeletter and codeletter_to_int are inverse bijections between the class numbers 0 <= i < 2^31 and the codes (base 26 with digits a..z without leading a's) whose value fits an int; the codes in the order shorter first, then alphabetical, are in the order of the numbers; no int overflow or read outside the alphabet happens on these inputs, and it does happen on longer codes and on negative numbers.", "quantifier": "for all ints i and all strings of letters of any length", "why_tests_cant": "Tests use the first few codes; leading-a and carry cases and overflow of 7-letter codes are not exercised.", "anchors": ["libsrc/curvesort.cc:261-291", "libsrc/eclib/curvesort.h:37-57"]}
{"id": "C89", "title": "booknumber permutes the classes of every level", "statement": "At every level booknumber0 is either the identity or a permutation of 0..n-1, 0 < n <= 8, given by an array of exactly n entries, and booknumber is the same permutation counted from 1; any other form number reads outside the array.", "quantifier": "for all levels and all form numbers", "why_tests_cant": "The tables are typed by hand for 146 levels; a repeated or missing entry merges two classes only at that level, and a short array is undefined behaviour which a test may not notice.", "anchors": ["libsrc/curvesort.cc:28-259"]}
{"id": "C90", "title": "testd accepts exactly the equivalences of quartics, and allperms lists all permutations", "statement": "testd returns 1 exactly when the substitution x -> al x + be z, z -> ga x + de z takes the second quartic to dd^2 times the first, identically in x and z; the table allperms contains each permutation of the four roots once, its first 8 being those that respect the two pairs and its first 4 those that keep each pair.", "quantifier": "for all quartics, all dd and all substitutions", "why_tests_cant": "Five expanded coefficient identities typed by hand; a wrong coefficient only shows for substitutions with several nonzero entries.", "anchors": ["libsrc/mequiv.cc:98-136"]}
