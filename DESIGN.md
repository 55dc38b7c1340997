# Formal model of eclib (C++ source in /repo) in Rocq/Coq 8.16.1

This document is written before the proofs and updated as the model grows.
`properties.jsonl` holds the properties, `MANIFEST.json` the status of each,
`rocq/theories` the model and proofs, `seeded/LOG.jsonl` the mutation log.

## 1. Shape of the development

For each part of the library there are up to three kinds of files

* `XModel.v`   - the model: Gallina definitions following the C++ function by
  function; every definition cites file and lines and states simplifications.
* `XSpec.v` / the *Specification* section at the head of `XProofs.v` - what is
  expected, written without using model helpers.
* `XProofs.v`  - lemmas.
* `PropertiesX.v` - final theorem statements only, each followed by
  `Print Assumptions`, with `Example`s showing that hypotheses can be met.

### Conventions of the model

* `long` = 64-bit, `int` = 32-bit two's complement (LP64).  Every signed machine
  operation goes through a checked operation returning `UB` when the exact
  result is out of range, when dividing by zero, when shifting by >= width.
  So "no undefined behaviour" is a provable statement, not an assumption.
* C++ `/` and `%` on machine integers truncate: `Z.quot`, `Z.rem`.
  NTL `ZZ` `/` and `%` floor: `Z.div`, `Z.modulo`.
* `bigint` (NTL ZZ) = `Z`, unbounded; NTL's own implementation is trusted.
* Loops are structural recursion or explicit fuel; running out of fuel is the
  distinct outcome `OutOfFuel`, and theorems that claim termination prove that
  a stated fuel is always enough.
* Out-of-bounds reads and writes, reads of uninitialised storage and overlapping
  `memcpy` are the distinct outcome `UB`.
* Threads: interleaving transition systems, one atomic step per shared access;
  theorems quantify over all reachable states.

### Trusted base

* The Coq kernel (8.16.1).
* The axioms printed by `Print Assumptions` for each theorem. The aim is
  "Closed under the global context" throughout; exceptions are listed in section 4.
* The correspondence between the Gallina definitions and the C++ text, which is
  by hand, function by function.
* NTL, PARI, FLINT, Boost, the C++ standard library and the compiler.
* Library functions entering theorems as universally quantified functions with a
  stated contract: `xgcd_spec` (NTL `XGCD`), `sqrrootmod_spec` (NTL `SqrRootMod`
  for odd primes), `pdivs_spec` (list of the prime divisors of a positive integer,
  used by minimise_c4c6), `pfull` (the list of prime divisors of the level handed
  to `moddata`), `factors_poly` (factorisation of polynomials over F_p by NTL
  `CanZass`). The Properties files exhibit functions meeting them.
* `std::map<int,scalar>`: an association list sorted by key; iterators stay valid until
  their element is erased, and using one after that is undefined.
* `boost::asio::io_service`: modelled by its documented behaviour (queue, count of
  outstanding work, `stopped` flag), see the head of `PoolModel.v`.

## 2. Property by property

| Id | What is modelled | How it is proved |
|----|------------------|------------------|
| C01 | `gcd`, `bezout` on 64-bit checked longs | loop invariant of the extended Euclid (coefficient bounds |x|<=|b|/g), well-founded fuel |
| C02 | `invmod` on top of `bezout` | from C01 |
| C03 | `mod`, `posmod`, `rounded_division`, bigint versions, `roundover` | division lemmas |
| C04 | `gauss_reduce`, `modrat`, `new_modrat` | lattice invariant, size decreasing; uniqueness by determinant argument |
| C05 | `xmod.h` | exact error analysis of the reciprocal, checked 64-bit ops |
| C06 | `rat.h`, `bigrat.h` | gcd lemmas; compared with cross-multiplication in Z |
| C07 | floor/ceil | proved for bigrational; refuted for rational (negative non-integers) |
| C08 | `leg`/`legendre`/`kronecker` | quadratic reciprocity proved from scratch (Gauss lemma, Eisenstein counting) |
| C09 | mixed `kronecker` | refuted (n even / negative), guarded version |
| C10 | `isqrt`, residue filter tables, `sqrtnr` | filter lemma by residues, Newton invariant |
| C11 | Hensel loops | induction on the exponent |
| C12 | `chrem` | Bezout |
| C13 | `val`, `divide_out` | induction on the exponent |
| C14 | divisor lists | induction over the prime list |
| C15 | sieve, `pdivs` | sieve invariant |
| C16 | `I2int`, `I2long` | case analysis |
| C17 | bigint `gauss_reduce`/`modrat` | refuted by concrete lattice |
| C18 | vec/mat as flat lists over a record of scalar operations (int, long, bigint) | pointwise lemmas |
| C19, C20 | `echmodp`, `pkernel` | elimination invariants: row span over Z/p, pivot structure |
| C21 | `echelon0`, `kernel`, `image`, `eigenspace`, `rank` | entries below the pivots are minors (Bareiss/Sylvester identity, mathcomp determinants), so divisions are exact; computation first in scalars with exact divisions only, then transferred to int, long, bigint by a refinement relation |
| C22 | `charpoly`, `determinant` | Faddeev-LeVerrier: coefficients of adj(xI-A), derivative of the characteristic polynomial (mathcomp char_poly) |
| C23, C24 | `maxabs`, `liftmat`, `echelonp` | refuted with witnesses, guarded variants |
| C25 | svec as ordered association list with iterators, including aliased operands | histories of operations refine histories on functions Z -> Z; refutations for zero scalars and self-addition |
| C26 | smat rows as pairs of arrays with indeterminate cells; reallocation, merging, transpose, products | histories of operations refine histories on dense functions; bigint histories never leave the arrays; refutations for setrow(i,vec), column counts, stored zeros |
| C27 | `smat_elim`: initial lists, steps 0-4, `standard`, dense part, `back_sub`, `old_kernel`, `rank`, with the column lists of C28 | invariant: row space, triangular pivots, each column list holds exactly the unfinished rows with an entry there, so nothing is read out of range; measure for every loop; rank unique by elimination of unknowns; contract of the dense elimination met by `echmodp` (C19); refuted for unreduced entries |
| C28 | `list` and `ordlist` as arrays with indeterminate and left-over cells | histories refine finite sets under stated conditions; refutations: a left-over taken for a member, insertion below two elements, full array, empty list |
| C29 | `unimod.h` | inverse refuted for det -1, the rest by ring |
| C30 | substitution in forms | ring identities |
| C31, C32 | reduction loops | decreasing leading coefficient; the matrix recorded for cubics is refuted (sign) |
| C33 | `lll_reduce`, `step3`, `swapi`, `redi`, `sdot` | lambda and d are Gram minors (Sylvester, mathcomp determinants); minors as bilinear forms, their change under size reduction and swap; the division is a parameter only known to be right when exact; loop bound arbitrary but large enough; the tail recursion of step3 is a loop (stack depth not modelled) |
| C34-C36 | `Curvedata` invariants, `valid_invariants`, `c4c6_to_ai`, `minimise_c4c6`, `minimalize` | ring identities, enumeration of residues mod 27 and 64, local exponents prime by prime; minimal among all Q-isomorphic integral models |
| C37-C40, C59 | points: `+`, `twice`, `n*P`, `order`, `transform`, `points_from_x`, `has_good_reduction` | projective formulas compared with the chord-tangent law over Q (`field`); associativity proved for any nonsingular Weierstrass cubic over a field from its coordinate ring (ideals of collinear points multiply to a principal ideal; the ideal of a point is not principal) |
| C41 | `moddata`, `symblist`, `symbdata` tables for any level N with N^2 < 2^63 | the three families of symbols are pairwise inequivalent; completeness either by the loop or by counting (psi(N) classes, counted prime by prime) |
| C42 | `add_coords` loops as the list of M-symbols | chain of unimodular steps, invariant of the nearest-integer continued fraction |
| C43 | `cuspeq`, `index`, `index_1`, `index_2` over call sequences | Gamma_0(N)-equivalence as existence of a matrix; Bezout criterion |
| C44, C45, C60 | thread pool as an interleaving transition system (any number of workers, any programs of jobs) | counting invariants over all reachable states, measure for termination; restart refuted by a trace and shown never to work |
| C46, C47 | form_finder tree, retirement of nodes | races refuted by traces, single thread proved; multiset of results = sequential search by a sum invariant |
| C48 | GetOpt | permutation invariant; overlapping memcpy refuted |
| C49 | `solve_conic` (both), `solve_conic_diag`, `solve_conic_diag_nontriv`, `conic_diag_reduce`, `cancel`, `cancel1`, `conic_mordell_reduce`; `legendre_solve`, `legendre_solve_cert_1` and what it calls, `make_certificate`, `new_legendre_reduce`, `legendre_param`, `legendre_via_lll` | descent with a certificate: measure abc, lattice of the certificate kept through every step; methods 0-3 by norms in Z[sqrt a]; pdivs, XGCD, SqrRootMod are parameters with contracts; recursion has a bound shown to be sufficient; methods 0-3 with a term in xz refuted; method 5: on a sublattice of index 2 the form over 2abc is integral of discriminant 2, an LLL-reduced basis has norms below 4\|abc\|, the finitely many remaining forms with no zero among the 13 vectors are definite |
| C64 | `testlocsol` (both) | Legendre's theorem, from the descent and the Chinese remainder theorem |
| C50 | `bitspace` on 64-bit words with the int shift 1<<i | basis in echelon form over F_2, histories; refuted from dimension 33 on |
| C62 | `sqfdiv`: constructor, usediv, getdivs, getsupp; sqfred, sqfmul, makenum, makeindex | classes as subsets of {-1} and the primes; subgroup, cosets, unique products; refuted for 30 primes, 33 entries, elements outside the group |
| C15 | `primeclass` init, number, getfirst; `primevar`; `prime_pi`, `primdiv`, `pdivs` (long) | memory as a function with bounds during the sieve; bytes of the finished table as a list; refuted for a prime gap of 282, getfirst past the end, pdivs beyond the square |
| C48 | `GetOpt`: constructor, exchange, operator() | strings as lists without the final zero; ordering as a parameter (getenv not modelled); messages on stderr not modelled; memcpy on overlapping blocks undefined or moving, as a parameter; refuted for overlap, calls after EOF, argc 0 |
| C51-C55 | `sqfdecomp`, `rusin_lem3`, `nrootscubic`, `pdivs_trial_div`, `intlog2` | loop invariants |
| C56 | `jc_reduce` with the rounded real as a parameter | refuted by a witness |
| C57 | `normalise`, `sl2_equivalent`, `gl2_equivalent` for positive discriminant | uniqueness of reduced definite forms, their automorphism groups, maximum of the orbit |
| C61 | `restrict_mat`, `prestrict` | comparison at the pivot rows; refuted for the whole space with a denominator |
| C65 | `psquare`, `lemma6`, `lemma7`, `zpsol`, `qpsoluble` | p-adic integers as coherent sequences; Hensel's lemma; values near x agree modulo p^(nu+min(mu,nu)); depth bounded by the discriminant as a combination of g(x) and g'(x) |
| C66 | `local_hilbert`, `global_hilbert` (all entries) | certificates (p-adic squares) and obstructions modulo p^4 for each square class, for p = 2 by a check over residues modulo 32; Hasse-Minkowski from Legendre's theorem (C64); refuted for leading coefficient 0 |
| C67 | `new_qpsoluble`, `new_zpsol`, `local_sol` (p >= 1000) | `fact_c` (NTL `CanZass`) is a parameter with contract `factors_poly`, shown to be satisfiable; a polynomial of degree at most 4 over F_p, p > 6, without simple root and with no value a non-zero square is a constant times a square (differential equation of f^((p-1)/2), no Weil bound); depth bounded by the discriminant |
| C68 | `Rsoluble`, `locallysoluble` (three versions), the type in `set_roots_and_type` | the floating-point roots are left out (they do not influence the type); real points by an explicit factorisation into two real quadratics; odd primes of good reduction: p = 3, 5 by a check of all residues, p > 6 by the lemma of C67 |
| C69 | `CurveRed(Curvedata)`, `root`, `rootsexist`, `nrootscubic` | each branch shown to reach the normal form of its type by an explicit integral change of coordinates; the loop for I*m has the bound v(discriminant); minimality excludes the end of the loop. `SqrRootMod` is used only for 1 modulo 2 (contract: it returns 1), `rootsmod` lists the roots of a polynomial with invertible leading coefficient without repetition, `pdivs` the prime divisors. Uniqueness of type and Tamagawa number: stage by stage, the condition that decides the stage is invariant under the changes of coordinates that keep the stage |
| C70 | `local_Tamagawa_exponent`, `global_Tamagawa_exponent`, `tamagawa_primes`, `getc_p`, `prodcp`, `local_Tamagawa_number`, `global_Tamagawa_number` | a cubic without double root has 0, 1 or 3 roots; exponents of products of cyclic groups; global exponent refuted for I0* with Tamagawa number 1 |
| C71 | `my_bg_algorithm` | the group is abstract (axioms of an abelian group, x-coordinates equal exactly for P and -P); least solution d: all multiples eP, 0 < e <= d, are non-zero, so the table entry needed at the last giant step has not been overwritten; refuted for short intervals |
| C72 | `operator*(bigint,pointmodq)`, `my_order_point` (three), `set_hasse_bounds`, `tidy_lcm`, `merge_points_1` | order = product of its prime powers, one prime at a time; Hasse's theorem is a hypothesis; the order cached in a point is not modelled |
| C73 | `linear_relation` | relations of P and Q are relations of the points of order gcd; the first divisor found is least; refuted for coprime orders |
| C74 | `merge_points_2`, `n2list`, `my_isomorphism_type` | invariant: kP2 in <P1> implies n2 \| k t^e with t = quot/n2, which for t = 1 is independence; group order by a complete list without repetition, Lagrange by summing the list. Parameters: random points (any sequence), the order of the Weil pairing (contract: divides n, and kB in <A> implies it divides k), the new point of order 2. Coordinates, function field and 2-division polynomial are not modelled; `my_isomorphism_type_new` is not called |
| C75 | `ComponentGroup` (egr.cc 35-51) | the code of the type against the table of component groups (spec `comp_group` of C70); the conversion of a map to the true group into one to the group returned |
| C76 | `InSameComponent`, `ImageInComponentGroup`, `OrderInComponentGroup`, `gr1prime`, `grprimes`, `egr_subgroup` (egr.cc 55-244, 252-482) | abstract group as in C71-C74; loop invariants: the span is unchanged, the points already treated are good; index by explicit coset representatives and multiplicativity. Parameters: `has_good_reduction` and `ImageInComponentGroup_Im` (the p-adic map for type I_n, lines 82-164, is not modelled), contract `component_map` |
| C77 | `MapPointsToComponentGroup`, `comp_map_image`, `egr_index` (egr.cc 489-800) | column by column elimination modulo the moduli: the order of the span is the modulus times the order of what is left; overflow of the scalars is not modelled; the passage to the minimal model in `egr_index` is left out |
| C78 | `div_pol_2`, `div_pol_odd`, `div_pol`, `division_polynomial`, `mul_by_n_num`, `mul_by_n_den`, `division_points_X_pol` (divpol.cc 34-156) | a ZPoly is the list of its coefficients, the fuel bounds the depth of the recursion. Below the order of the point the values agree with the sequence defined by the abscissae of the multiples (DivPolEds, DivPolCurve, any field); this gives the relations of an elliptic divisibility sequence at infinitely many points over the algebraic numbers, hence as identities of integer polynomials (DivPolEval, DivPolGen); these settle points of finite order beyond their order (DivPolTwo, DivPolQ) |
| C79 | `Point::order` (points.cc 195-209; modelled in PointsModel) | total correctness without Mazur's theorem: torsion points of order at least 3 are integral, by the leading coefficients of the division polynomials and of the multiplication maps (NagLutz); points of order 2 have Z <= 8; the multiples of a point whose coordinates stay in bounds repeat, so the loop ends (OrderTot) |
| C80 | `roots(ZPoly)`, `introots`, `roots(vector)`, `Introotscubic`, `Introotsquartic` (polys.cc 66-168) | NTL's `factor` is a parameter with the contract of a factorisation into primitive irreducible polynomials; a rational root gives a linear factor over Z (Gauss) |
| C81 | `Point_comparer`, `two_torsion`, `three_torsion_x`, `three_torsion`, `m_torsion` (points.cc 289-307, 356-505) | `introots` is a parameter with the contract that it returns the integer roots in order (C80 gives it); std::sort is insertion sort with the comparison that calls `order`; m fits an int. Completeness from C78 (roots of division polynomials) and C79 (integrality). two_torsion is wrong when a1, a3 are even and not both 0; m_torsion without exact misses the points of order 2 for even m > 2 |
| C82 | torsion_points (points.cc 507-585), Point::division_points (588-623) | TorsModel; Mazur's theorem is the hypothesis `mazur E` of the theorems (the lists of exponents in the code are only right because of it), shown to hold for 11a3 and 32a2 in the examples. The exponent found is the exponent of the group because every order divides it and multiples are tried first; completeness then follows by counting the cyclic subgroup and its coset. division_points for P of infinite order needs no such hypothesis: it follows from C78 and C80, the polynomial being nonzero because m*(2P) is not +-P. |
| C83 | twoisog, threeisog (isogs.cc 442-507) | IsogModel, on two_torsion and three_torsion_x of TorsModel and curvedata_of of CurveModel (minimalisation). IsogSpec defines the map in coordinates and what an isogeny over a field is. VeluGen proves over any field with 2 <> 0 that Velu's map for a kernel of order 2 or 3 respects collinearity (the images of the points on a line lie on a line, by identities in the symmetric functions of the three abscissae), hence addition; tangents and coinciding images are dealt with by discriminants and by associativity (the group law of CoordRing). VeluInt relates the integers of the code to the field elements, IsogField instantiates every mathcomp fieldType of characteristic 0. Output and the reduction data computed by CurveRed(EE) are left out (the latter: C69). |
| C84 | IsogenyClass constructor, process, grow, getmat (isogs.cc 244-342, 421-429) | IsogClassModel with lisog a parameter and the matrix a flat array of 676 cells with writes outside it undefined; IsogClassProofs: invariant of the breadth-first search (no repetitions, parents, entries of the matrix, every curve already processed has all its isogenies recorded), termination because the class is finite. Printing and the sorting of curves are not modelled. |
| C85 | semistable's use, comprat, getelllist (isogs.cc 183-242) | in IsogClassModel; the specification compares j by cross-multiplication with the list of Mazur and Kenku. |
| C63 | liftmat, liftmats_chinese for smat (smat.cc 901-1000) | LiftModel, on SmatModel, modrat_long of ArithModel and s_lcm of EchModel; the sparse representation predicate rep is that of C26 (SmatMat). LiftProofs: shortest lattice vectors are primitive modulo a prime, so the denominator found divides every other one; induction over the entries. |
| C86, C87 | minimalisation of quartics (minim.cc root_p, minim_p, is_nonmin, minim_all) | MinimModel, MinimSpec, MinimArith, MinimArith3, MinimProofs, MinimAllProofs, MinimThree, MinimAllThree, PropertiesMinim |
| C88, C89 | class codes and table permutations (curvesort.cc new_codeletter, codeletter_to_int, booknumber0, booknumber) | CurveSortModel, CurveSortSpec, CurveSortProofs, PropertiesCurveSort |
| C90 | test of an equivalence of quartics (mequiv.cc testd, allperms) | TestdModel, TestdProofs, PropertiesTestd (spec: takes of MinimSpec) |
| C58 | quartic seminvariants, `resultant` | ring identities |

Where a property is false of the code, the theorem is named `..._refuted` and
exhibits a witness; where only a part is proved the theorem is named
`..._partial` and the missing part is stated next to it.

## 3. Not modelled

I/O formats and user interaction, floating-point code (periods, heights, real
roots, `jc_reduce`), NTL factorisation, PARI calls, everything not cited by a
definition in `rocq/theories`.

## 4. Assumptions listed by `Print Assumptions`

All theorems of a Properties file are followed by `Print Assumptions`. What they print:

| File | closed | with axioms |
|---|---|---|
| PropertiesArith | 34 | none |
| PropertiesBit | 2 | none |
| PropertiesConic | 11 | none |
| PropertiesConicLLL | 4 | none |
| PropertiesCurve | 10 | none |
| PropertiesCurveSort | 3 | none |
| PropertiesDivPol | 5 | none |
| PropertiesEch | 13 | none |
| PropertiesEgr | 9 | none |
| PropertiesForms | 28 | none |
| PropertiesGrp | 15 | none |
| PropertiesHilbert | 1 | C66_local, C66_global, C66_global_ab, C66_hasse, C66_conic, C66_conic_pdivs: `ClassicalDedekindReals.sig_forall_dec`, `ClassicalDedekindReals.sig_not_dec`, `FunctionalExtensionality.functional_extensionality_dep` |
| PropertiesIsog | 3 | none |
| PropertiesIsogClass | 5 | none |
| PropertiesLLL | 3 | none |
| PropertiesLift | 6 | none |
| PropertiesLin | 17 | none |
| PropertiesLocSol | 5 | none |
| PropertiesLocSolAll | 1 | C68_Rsoluble, C68_locallysoluble, C68_everywhere, C68_everywhere_ace: `ClassicalDedekindReals.sig_forall_dec`, `ClassicalDedekindReals.sig_not_dec`, `FunctionalExtensionality.functional_extensionality_dep`; C68_zero_disc_refuted: `ClassicalDedekindReals.sig_forall_dec`, `FunctionalExtensionality.functional_extensionality_dep` |
| PropertiesLocSolSS | 4 | none |
| PropertiesMArith | 49 | none |
| PropertiesMinim | 7 | none |
| PropertiesOpt | 5 | none |
| PropertiesOrd | 6 | none |
| PropertiesOrder | 4 | none |
| PropertiesPoints | 15 | none |
| PropertiesPool | 12 | none |
| PropertiesPrime | 10 | none |
| PropertiesRoots | 5 | none |
| PropertiesSElim | 5 | none |
| PropertiesSmat | 7 | none |
| PropertiesSparse | 14 | none |
| PropertiesSqf | 7 | none |
| PropertiesSymb | 10 | none |
| PropertiesTate | 7 | none |
| PropertiesTestd | 2 | none |
| PropertiesTors | 9 | none |
| PropertiesTorsAll | 5 | none |

All axioms used: `ClassicalDedekindReals.sig_forall_dec`, `ClassicalDedekindReals.sig_not_dec`, `FunctionalExtensionality.functional_extensionality_dep` (all from the Coq standard library, brought in by Coq.Reals).
