{
 "claims": [
  {
   "property": "C01",
   "status": "proved",
   "theorems": [
    "C01_gcd",
    "C01_bezout",
    "C01_lcm",
    "C01_min_value_refuted",
    "C01_lcm_nonneg_refuted"
   ],
   "note": "All longs except LONG_MIN; the two _refuted theorems show that LONG_MIN overflows and that lcm can be negative."
  },
  {
   "property": "C02",
   "status": "proved",
   "theorems": [
    "C02_invmod"
   ],
   "note": ""
  },
  {
   "property": "C03",
   "status": "partial",
   "theorems": [
    "C03_mod",
    "C03_mod_int",
    "C03_centred_unique",
    "C03_posmod",
    "C03_posmod_int",
    "C03_rounded_division",
    "C03_rounded_division_large_refuted",
    "C03_posmod_negative_modulus_refuted",
    "C03_bigint_mod",
    "C03_bigint_posmod",
    "C03_bigint_rounded_division",
    "C03_bigint_roundover"
   ],
   "note": "long, int and bigint versions; long/int false for posmod with negative modulus and for rounded_division with divisor above 2^62, as proved by the _refuted theorems. bigint versions proved for every non-zero (rounded_division: positive) divisor."
  },
  {
   "property": "C04",
   "status": "proved",
   "theorems": [
    "C04_gauss_reduce",
    "C04_modrat_sound",
    "C04_modrat_complete"
   ],
   "note": "The floating point bound in modrat is modelled by the exact comparison 2a^2<=m."
  },
  {
   "property": "C05",
   "status": "proved",
   "theorems": [
    "C05_modulus_is_prime",
    "C05_xmm0",
    "C05_xmodmul_int",
    "C05_xmodmul_long",
    "C05_mod0",
    "C05_invmod0_int",
    "C05_invmod0_long"
   ],
   "note": ""
  },
  {
   "property": "C06",
   "status": "proved",
   "theorems": [
    "C06_make",
    "C06_make_total",
    "C06_rational_ops",
    "C06_rational_ops_total",
    "C06_bigrational_ops"
   ],
   "note": ""
  },
  {
   "property": "C07",
   "status": "partial",
   "theorems": [
    "C07_bigrational_floor",
    "C07_bigrational_ceil",
    "C07_rational_floor_ceil_partial",
    "C07_rational_floor_refuted",
    "C07_rational_ceil_refuted"
   ],
   "note": "True for bigrational; for rational (long) true for non-negative values and false for negative non-integers."
  },
  {
   "property": "C08",
   "status": "proved",
   "theorems": [
    "C08_legendre_long",
    "C08_legendre_bigint",
    "C08_legendre_mixed",
    "C08_legendre_prime",
    "C08_kronecker_long",
    "C08_kronecker_bigint",
    "C08_legendre_negative_modulus_refuted"
   ],
   "note": "Jacobi and Kronecker symbols for all odd positive moduli, resp. all pairs; quadratic reciprocity is proved in QuadRec.v/JacobiMath.v. The _refuted theorem concerns a negative modulus, outside the claim."
  },
  {
   "property": "C09",
   "status": "partial",
   "theorems": [
    "C09_kronecker_mixed_partial",
    "C09_kronecker_mixed_refuted",
    "C09_kronecker_mixed_even_refuted"
   ],
   "note": "False in general (negative n and n=2 mod 4); true for odd positive n up to 2^62."
  },
  {
   "property": "C10",
   "status": "proved",
   "theorems": [
    "C10_isqrt",
    "C10_sqrtnr"
   ],
   "note": ""
  },
  {
   "property": "C11",
   "status": "proved",
   "theorems": [
    "C11_sqrt_mod_2_power",
    "C11_sqrt_mod_p_power",
    "C11_sqrt_mod_m",
    "C11_modsqrt",
    "C11_sqrt_mod_noncoprime_refuted"
   ],
   "note": "NTL's XGCD and SqrRootMod enter as functions with stated contracts, both shown satisfiable."
  },
  {
   "property": "C12",
   "status": "proved",
   "theorems": [
    "C12_chrem",
    "C12_invmod_bigint"
   ],
   "note": "NTL's XGCD enters by its contract."
  },
  {
   "property": "C13",
   "status": "proved",
   "theorems": [
    "C13_val_long",
    "C13_val_bigint",
    "C13_divide_out",
    "C13_divides",
    "C13_divide_out_unit_refuted"
   ],
   "note": ""
  },
  {
   "property": "C14",
   "status": "proved",
   "theorems": [
    "C14_posdivs_bigint",
    "C14_alldivs_bigint",
    "C14_sqdivs_bigint",
    "C14_sqfreedivs_bigint",
    "C14_posdivs_long",
    "C14_alldivs_long",
    "C14_sqdivs_long",
    "C14_sqfreedivs_long"
   ],
   "note": ""
  },
  {
   "property": "C16",
   "status": "proved",
   "theorems": [
    "C16_I2long",
    "C16_I2int"
   ],
   "note": ""
  },
  {
   "property": "C17",
   "status": "partial",
   "theorems": [
    "C17_gauss_reduce_bigint_partial",
    "C17_modrat_bigint_sound_partial",
    "C17_gauss_reduce_bigint_refuted",
    "C17_modrat_bigint_refuted"
   ],
   "note": "False: the sign of Q is lost on exchange. Proved: termination, same lattice, soundness of modrat."
  },
  {
   "property": "C51",
   "status": "proved",
   "theorems": [
    "C51_sqfdecomp"
   ],
   "note": ""
  },
  {
   "property": "C52",
   "status": "proved",
   "theorems": [
    "C52_rusin_lem3"
   ],
   "note": ""
  },
  {
   "property": "C53",
   "status": "proved",
   "theorems": [
    "C53_nrootscubic",
    "C53_distinct_refuted"
   ],
   "note": ""
  },
  {
   "property": "C54",
   "status": "proved",
   "theorems": [
    "C54_pdivs_trial_div"
   ],
   "note": ""
  },
  {
   "property": "C55",
   "status": "partial",
   "theorems": [
    "C55_intlog2",
    "C55_intlog2_large_refuted"
   ],
   "note": "True below 2^31; undefined behaviour for every larger n."
  },
  {
   "property": "C29",
   "status": "partial",
   "theorems": [
    "C29_product_acts",
    "C29_elementary",
    "C29_det_unit",
    "C29_inverse_partial",
    "C29_inverse_refuted",
    "C29_invert_comment_refuted"
   ],
   "note": "inverse() is right for determinant 1 only; for determinant -1 it returns minus the inverse and negates the matrix itself."
  },
  {
   "property": "C30",
   "status": "partial",
   "theorems": [
    "C30_eval",
    "C30_quadratic",
    "C30_cubic",
    "C30_quartic",
    "C30_elementary",
    "C30_cubic_invert_refuted",
    "C30_scaled",
    "C30_check_transform"
   ],
   "note": "All identities hold except one: cubic::invert substitutes the negative of the matrix it records."
  },
  {
   "property": "C31",
   "status": "proved",
   "theorems": [
    "C31_quadratic_reduce",
    "C31_unique",
    "C31_negative_refuted"
   ],
   "note": ""
  },
  {
   "property": "C32",
   "status": "partial",
   "theorems": [
    "C32_hess_reduce",
    "C32_matrix_refuted",
    "C32_is_reduced_refuted",
    "C32_disc_zero_refuted"
   ],
   "note": "Termination, reducedness and equivalence proved; the recorded matrix is right only up to sign, as a witness shows."
  },
  {
   "property": "C56",
   "status": "partial",
   "theorems": [
    "C56_jc_matrix_refuted"
   ],
   "note": "False: witness with leading coefficient 0, for every rounding function."
  },
  {
   "property": "C57",
   "status": "proved",
   "theorems": [
    "C57_sl2_equivalent",
    "C57_gl2_equivalent"
   ],
   "note": ""
  },
  {
   "property": "C58",
   "status": "proved",
   "theorems": [
    "C58_syzygy",
    "C58_doubleup",
    "C58_resultant",
    "C58_resultant_root"
   ],
   "note": ""
  },
  {
   "property": "C34",
   "status": "proved",
   "theorems": [
    "C34_curvedata",
    "C34_identities",
    "C34_transform"
   ],
   "note": ""
  },
  {
   "property": "C35",
   "status": "proved",
   "theorems": [
    "C35_valid_invariants",
    "C35_curve_from_c4c6",
    "C35_b_invariants"
   ],
   "note": ""
  },
  {
   "property": "C36",
   "status": "proved",
   "theorems": [
    "C36_minimise_c4c6",
    "C36_minimalize",
    "C36_minimalize_urst",
    "C36_minimal_unique"
   ],
   "note": "pdivs (prime divisors of an integer) enters as a function meeting pdivs_spec."
  },
  {
   "property": "C37",
   "status": "proved",
   "theorems": [
    "C37_constructor",
    "C37_isvalid",
    "C37_equality",
    "C37_closure",
    "C37_reduced",
    "C37_subtraction",
    "C37_group"
   ],
   "note": "Associativity is proved for every nonsingular Weierstrass cubic over a field (coordinate ring, ideal classes)."
  },
  {
   "property": "C38",
   "status": "partial",
   "theorems": [
    "C38_multiple",
    "C38_least_int_refuted",
    "C38_order_partial",
    "C38_multiples"
   ],
   "note": "n*P is the n-fold sum for every int n except the least one, whose negation is undefined (refuted). order(): a positive answer is the order; that it ends and -1 means infinite order is C79."
  },
  {
   "property": "C39",
   "status": "proved",
   "theorems": [
    "C39_transform",
    "C39_coordinates"
   ],
   "note": ""
  },
  {
   "property": "C40",
   "status": "proved",
   "theorems": [
    "C40_points_from_x"
   ],
   "note": ""
  },
  {
   "property": "C59",
   "status": "proved",
   "theorems": [
    "C59_good_reduction"
   ],
   "note": ""
  },
  {
   "property": "C41",
   "status": "partial",
   "theorems": [
    "C41_symbols",
    "C41_actions",
    "C41_level_one_refuted"
   ],
   "note": "every level 1 < N with N^2 < 2^63; level 1 refuted (lookup reads outside the tables)"
  },
  {
   "property": "C42",
   "status": "proved",
   "theorems": [
    "C42_from_zero",
    "C42_between_cusps"
   ],
   "note": "entries bounded so that no 64-bit operation overflows"
  },
  {
   "property": "C43",
   "status": "proved",
   "theorems": [
    "C43_cuspeq",
    "C43_equivalence",
    "C43_index",
    "C43_index_1",
    "C43_index_2"
   ],
   "note": "entries up to 2*10^9, levels 1 < N with N^2 < 2^63"
  },
  {
   "property": "C44",
   "status": "proved",
   "theorems": [
    "C44_exactly_once",
    "C44_no_deadlock",
    "C44_terminates"
   ],
   "note": "io_service enters by its documented behaviour"
  },
  {
   "property": "C45",
   "status": "partial",
   "theorems": [
    "C45_restart_refuted",
    "C45_no_job_after_close"
   ],
   "note": "False: after the first close() no job is ever executed again."
  },
  {
   "property": "C46",
   "status": "partial",
   "theorems": [
    "C46_retired_once_refuted",
    "C46_no_access_after_free_refuted",
    "C46_one_thread_partial"
   ],
   "note": "False with two threads (traces exhibited); proved for a single thread."
  },
  {
   "property": "C47",
   "status": "proved",
   "theorems": [
    "C47_schedule",
    "C47_ends"
   ],
   "note": "the linear algebra at a node enters as functions of the node; the memory accesses of C46 are modelled separately"
  },
  {
   "property": "C60",
   "status": "partial",
   "theorems": [
    "C60_threads_refuted",
    "C60_threads_partial"
   ],
   "note": "False when hardware_concurrency() returns 0; proved otherwise."
  },
  {
   "property": "C18",
   "status": "proved",
   "theorems": [
    "C18_vectors",
    "C18_matrices",
    "C18_bigint_total",
    "C18_structural",
    "C18_modular"
   ],
   "note": "int, long and bigint; overflow is undefined behaviour in the model, so results that are returned are the true ones; modular products for entries below p in absolute value"
  },
  {
   "property": "C19",
   "status": "proved",
   "theorems": [
    "C19_echmodp"
   ],
   "note": "int: 2p < 2^31; long: p^2 < 2^63; bigint: every prime"
  },
  {
   "property": "C20",
   "status": "partial",
   "theorems": [
    "C20_oldpkernel",
    "C20_pkernel",
    "C20_pkernel_int_refuted"
   ],
   "note": "oldpkernel for every modulus of C19; pkernel for bigint and long, and for int when p <= 92681; with int and the default modulus pkernel overflows (witness)"
  },
  {
   "property": "C23",
   "status": "partial",
   "theorems": [
    "C23_maxabs_refuted",
    "C23_liftmat_early",
    "C23_liftmat_refuted"
   ],
   "note": "False: maxabs returns 0 for every matrix, so liftmat always exits early and leaves dd unassigned; what it does return is characterised."
  },
  {
   "property": "C24",
   "status": "partial",
   "theorems": [
    "C24_echelonp_refuted",
    "C24_rows_refuted"
   ],
   "note": "False: rows returned leave the row space modulo p; as many rows as the input."
  },
  {
   "property": "C61",
   "status": "partial",
   "theorems": [
    "C61_restrict",
    "C61_prestrict",
    "C61_whole_space_refuted"
   ],
   "note": "False for the whole space with denominator different from 1 (early return); proved otherwise."
  },
  {
   "property": "C21",
   "status": "partial",
   "theorems": [
    "C21_echelon_bigint",
    "C21_echelon_long",
    "C21_echelon_int",
    "C21_rank",
    "C21_rank_unique",
    "C21_kernel",
    "C21_image",
    "C21_eigenspace",
    "C21_echelon_entries_refuted",
    "C21_long_overflow_refuted"
   ],
   "note": "bigint: proved for every matrix (all divisions exact, same rational row space, reduced shape, kernel/image/eigenspace/rank). int, long: any result returned is the right one, overflow possible (witness). The returned matrix object keeps surplus entries (witness of undefined behaviour when it is added to another one)."
  },
  {
   "property": "C22",
   "status": "partial",
   "theorems": [
    "C22_charpoly",
    "C22_determinant",
    "C22_empty_refuted"
   ],
   "note": "proved for n >= 1 (bigint total; int and long when a result is returned), all divisions exact; for n = 0 the vector is written out of bounds (witness)"
  },
  {
   "property": "C25",
   "status": "partial",
   "theorems": [
    "C25_histories_partial",
    "C25_histories_total",
    "C25_histories_mod_partial",
    "C25_ons_offs",
    "C25_conversions",
    "C25_dotmodp",
    "C25_make_primitive",
    "C25_make_primitive_total",
    "C25_set_zero_refuted",
    "C25_equality_refuted",
    "C25_alias_refuted",
    "C25_scale_mod_refuted",
    "C25_alias_mod_refuted",
    "C25_zero_vector_refuted"
   ],
   "note": "False in full: set(i,0) leaves the entry, multiplying by 0 stores zeros so == and the support go wrong, and adding -1 times a vector to itself uses an erased element (witnesses). Proved for every other history, exact and modulo p, and every scalar type, with aliasing of operands; also conversions, inner products, content."
  },
  {
   "property": "C26",
   "status": "partial",
   "theorems": [
    "C26_histories_partial",
    "C26_histories_total",
    "C26_histories_mod_partial",
    "C26_setrow_vec_refuted",
    "C26_columns_refuted",
    "C26_diagonal_refuted",
    "C26_equality_refuted"
   ],
   "note": "False in full: setrow(i,vec) writes past the end of the position array whenever it reallocates; += of matrices with different numbers of columns and += scalar with more rows than columns leave positions outside the matrix; == ignores the number of columns and sees stored zeros (witnesses). Proved for every other history of the modelled operations, exact (int, long, bigint) and modulo p, with all readings and products."
  },
  {
   "property": "C28",
   "status": "partial",
   "theorems": [
    "C28_histories_partial",
    "C28_find",
    "C28_stale_refuted",
    "C28_put_refuted",
    "C28_full_refuted",
    "C28_empty_refuted"
   ],
   "note": "False in full: put(L) takes a left-over after the end for a member, or reads past a full array; put(x) with two larger elements loses one; find on an empty list reads element -1 (witnesses). Proved: every history outside those cases refines a finite set and stays inside the array; find gives the first position not smaller."
  },
  {
   "property": "C50",
   "status": "partial",
   "theorems": [
    "C50_histories_partial",
    "C50_wide_refuted"
   ],
   "note": "False for dimensions 33 to 64: every reduction shifts an int by 32 or more (proved for all of them). Proved for dimensions up to 32, including 32 where 1<<31 is negative, with the pivot mask choosing one representative per class."
  },
  {
   "property": "C62",
   "status": "partial",
   "theorems": [
    "C62_subgroup_partial",
    "C62_support_partial",
    "C62_index_partial",
    "C62_makenum_partial",
    "C62_sqfmul",
    "C62_wide_refuted",
    "C62_outside_refuted"
   ],
   "note": "False in full: with 30 primes dividing d the constructor throws (2<<30 is negative), makenum on more than 32 entries is undefined, and usediv with an element outside the group duplicates entries until the array overflows. Proved up to these sizes for all sequences inside the group."
  },
  {
   "property": "C15",
   "status": "partial",
   "theorems": [
    "C15_table",
    "C15_number_partial",
    "C15_getfirst_partial",
    "C15_primevar_partial",
    "C15_prime_pi_partial",
    "C15_primdiv_partial",
    "C15_pdivs_partial",
    "C15_default",
    "C15_gap_refuted",
    "C15_beyond_refuted"
   ],
   "note": "The sieve is proved for every limit. False in full: differences are stored in bytes, so with limit 436273291 number is wrong for some index; getfirst(n) for n one more than the number of primes repeats a prime; pdivs beyond the square of the table returns composites. Proved for all limits without a gap of 256 (including the default 1000000), all reached states and all numbers below the square of the first uncovered number."
  },
  {
   "property": "C48",
   "status": "partial",
   "theorems": [
    "C48_meaning",
    "C48_scan_partial",
    "C48_strict_partial",
    "C48_overlap_refuted",
    "C48_after_refuted"
   ],
   "note": "False in full: exchange uses memcpy on blocks which overlap (prog x -n 5), a call after EOF is undefined when there is an operand, argc 0 is undefined, and a letter with code 255 is taken for EOF (witnesses). Proved for all argument lists, option strings without that letter and all three orderings: with memcpy moving blocks the scan follows the unique meaning of the arguments and permutes argv; with memcpy undefined on overlap the same when nothing is permuted, and otherwise the same or undefined."
  },
  {
   "property": "C33",
   "status": "proved",
   "theorems": [
    "C33_lll",
    "C33_dependent",
    "C33_short"
   ],
   "note": "For all numbers of vectors, dimensions, positive weights. Termination is stated as: the same result for every loop bound large enough. Exactness is stated as: the same result for every division which is right on exact quotients. The recursion depth of step3 on the C++ stack is not modelled."
  },
  {
   "property": "C49",
   "status": "partial",
   "theorems": [
    "C49_descent",
    "C49_legendre_solve",
    "C49_diag",
    "C49_methods_0_3",
    "C49_method_4",
    "C49_full",
    "C49_via_lll",
    "C49_legendre_solve_lll",
    "C49_method_5",
    "C49_full_5",
    "C49_nondiag_refuted",
    "C49_nondiag_solution_refuted"
   ],
   "note": "False in full: with a term in xz the methods 0 to 3 use b^2+4ac for the discriminant, miss solutions of soluble conics and return non-solutions of insoluble ones (witnesses). Proved: methods 4 (the default) and 5 (LLL) for all conics, methods 0 to 3 without a term in xz, the wrapper which factors, the solvers below them."
  },
  {
   "property": "C64",
   "status": "proved",
   "theorems": [
    "C64_testlocsol3",
    "C64_testlocsol2",
    "C64_legendre"
   ],
   "note": "The prime lists are assumed to be right, as in the code."
  },
  {
   "property": "C65",
   "status": "proved",
   "theorems": [
    "C65_psquare",
    "C65_qpsoluble",
    "C65_exclusive",
    "C65_decides",
    "C65_zero_discriminant_refuted"
   ],
   "note": "For all primes and all quartics with nonzero discriminant; for a zero discriminant a witness shows that the recursion need not end. new_qpsoluble with p >= 1000 is C67."
  },
  {
   "property": "C66",
   "status": "proved",
   "theorems": [
    "C66_local",
    "C66_global",
    "C66_global_ab",
    "C66_hasse",
    "C66_conic",
    "C66_conic_pdivs",
    "C66_leading_zero_refuted"
   ],
   "note": "Proved for all non-zero arguments, all primes and the real place. For a conic with leading coefficient 0 the code answers 'insoluble at the real place' although the conic is soluble (witness)."
  },
  {
   "property": "C67",
   "status": "proved",
   "theorems": [
    "C67_new_qpsoluble",
    "C67_decides",
    "C67_same_answer",
    "C67_contract_met"
   ],
   "note": "For all primes and all quartics with nonzero discriminant; the factorisation of polynomials over F_p (NTL CanZass) is a parameter with a contract, shown to be satisfiable."
  },
  {
   "property": "C68",
   "status": "proved",
   "theorems": [
    "C68_Rsoluble",
    "C68_zero_disc_refuted",
    "C68_good_prime",
    "C68_locallysoluble",
    "C68_everywhere",
    "C68_everywhere_ace"
   ],
   "note": "For all quartics with nonzero discriminant; for a zero discriminant a witness shows that Rsoluble can be wrong. CanZass as in C67. Uses the axioms of Coq's real numbers."
  },
  {
   "property": "C27",
   "status": "partial",
   "theorems": [
    "C27_rank_partial",
    "C27_rank_unique",
    "C27_kernel_partial",
    "C27_any_order",
    "C27_unreduced_refuted"
   ],
   "note": "False for entries not reduced modulo p: init does not reduce them, and the rank of the 1 x 1 matrix (p) comes out as 1 (witness). Proved for entries that are not 0 modulo p and, for int and long, smaller than p in absolute value: the elimination terminates without leaving the arrays, the rank is the rank modulo p, the kernel is complete, and the row space is kept for every pivot order. The dense elimination (FLINT or NTL) is a parameter with a contract, met by echmodp."
  },
  {
   "property": "C69",
   "status": "proved",
   "theorems": [
    "C69_tate",
    "C69_type_unique",
    "C69_entry_unique"
   ],
   "note": "For all curves with nonzero discriminant. The geometric meaning of the normal forms (the special fibre of the Neron model) is taken from Silverman IV.9.4 and is not formalised; uniqueness of type and Tamagawa number among integral models is proved. The local root number is not modelled."
  },
  {
   "property": "C70",
   "status": "partial",
   "theorems": [
    "C70_numbers",
    "C70_local_exponent",
    "C70_global_exponent_partial",
    "C70_global_exponent_refuted"
   ],
   "note": "The local and global numbers and the local exponents are proved. global_Tamagawa_exponent is not the lcm of the local exponents for a prime of type I0* with Tamagawa number 1 (witness y^2 = x^3 + 686); otherwise it is, and it always annihilates the component groups."
  },
  {
   "property": "C71",
   "status": "partial",
   "theorems": [
    "C71_bg_partial",
    "C71_bg_refuted"
   ],
   "note": "False as stated: for upper - lower < 30 the loop runs once too often and can return upper + 1 when there is no solution in the interval (witness). Proved: -1 is returned exactly when there is no solution in the interval (or the result is upper + 1 for a short interval), every other result is a solution at least lower, and at most upper for upper - lower >= 30."
  },
  {
   "property": "C72",
   "status": "proved",
   "theorems": [
    "C72_multiple",
    "C72_order_multiple",
    "C72_order_bounds",
    "C72_hasse",
    "C72_order_point",
    "C72_tidy_lcm",
    "C72_merge"
   ],
   "note": "For all abelian groups; Hasse's theorem is a hypothesis on the point (some integer in the Hasse interval kills it), pdivs a parameter with a contract."
  },
  {
   "property": "C73",
   "status": "partial",
   "theorems": [
    "C73_relation_partial",
    "C73_relation_refuted"
   ],
   "note": "False for points of coprime orders: the result is 1 instead of the order of Q (witness in the cyclic group of order 6). Proved for orders with a common factor and for Q = 0."
  },
  {
   "property": "C74",
   "status": "partial",
   "theorems": [
    "C74_basis_known_order",
    "C74_basis_partial",
    "C74_basis_refuted",
    "C74_independent_refuted"
   ],
   "note": "False in general: with unlucky random points the first phase fixes a wrong index, and the group Z/60 x Z/2 over F_103 is declared cyclic of order 60 (witness); merge_points_2 can make P2 a multiple of P1 (witness). Proved: a result is a basis if the group order is computed in advance, or if the first phase ends with a point of maximal order, or if q >= 34 and the only possible index is 1. The Weil pairing and the 2-division points are parameters with contracts; termination depends on the random points and is not claimed."
  },
  {
   "property": "C75",
   "status": "partial",
   "theorems": [
    "C75_component_group_partial",
    "C75_component_group_refuted"
   ],
   "note": "False as stated: for type I*m, m even, with Tamagawa number 1 or 2 the result is [2,2] (witness y^2 = x^3 + 686 at 7, where the group is trivial). Proved: this is the only exception, and the group returned always contains the component group, which is what C76 and C77 need."
  },
  {
   "property": "C76",
   "status": "proved",
   "theorems": [
    "C76_order",
    "C76_one_prime",
    "C76_all_primes",
    "C76_egr_subgroup"
   ],
   "note": "Over any abelian group; good reduction and the map to Z/n for type I_n are parameters, with the contract that the good points are the kernel of a homomorphism to Z/n or Z/2 x Z/2. n^2 < 2^31 because of a product of ints."
  },
  {
   "property": "C77",
   "status": "partial",
   "theorems": [
    "C77_comp_map_image",
    "C77_index_partial",
    "C77_index_refuted"
   ],
   "note": "comp_map_image is proved for all matrices. egr_index is false in general: the test for group order 3 or 4 in MapPointsToComponentGroup looks at the number of cyclic factors, so images up to sign are never made compatible (witness: index 9, result 3). Proved when at the primes with cyclic group of order 3 or 4 the points generating that group all lie in one component."
  },
  {
   "property": "C78",
   "status": "proved",
   "theorems": [
    "C78_roots",
    "C78_degree",
    "C78_mul_by_n",
    "C78_division_points",
    "C78_negative"
   ],
   "note": "For all n >= 1, all curves with nonzero discriminant and all rational points, torsion included; the group law is the one proved in GroupLaw.v. For n < 0 the recursion does not end (C78_negative)."
  },
  {
   "property": "C79",
   "status": "proved",
   "theorems": [
    "C79_order",
    "C79_integral",
    "C79_two_torsion",
    "C79_bound"
   ],
   "note": "For all curves with nonzero discriminant and all reduced points; fuel is a bound depending on the point, shown to exist."
  },
  {
   "property": "C80",
   "status": "proved",
   "theorems": [
    "C80_roots",
    "C80_introots",
    "C80_cubic",
    "C80_quartic",
    "C80_coeffs"
   ],
   "note": "NTL's factor is a parameter with the contract factor_ok (satisfied only by nonzero polynomials)."
  },
  {
   "property": "C81",
   "status": "partial",
   "theorems": [
    "C81_contract",
    "C81_two_torsion_partial",
    "C81_two_torsion_refuted",
    "C81_three_torsion",
    "C81_exact_order",
    "C81_m_torsion_partial",
    "C81_m_torsion_refuted",
    "C81_small",
    "C81_order_one_refuted"
   ],
   "note": "three_torsion and m_torsion with exact = 1 (|m| >= 3) are right for all curves. two_torsion is right when a1 or a3 is odd or both are 0, false for other curves (refuted). m_torsion with exact = 0 is right for odd m and exactly misses the points of order 2 for even m > 2 (refuted); m = 1 with exact = 1 returns nothing."
  },
  {
   "property": "C82",
   "status": "partial",
   "theorems": [
    "C82_torsion_points_partial",
    "C82_torsion_points_refuted",
    "C82_division_torsion",
    "C82_division_infinite",
    "C82_division_negative"
   ],
   "note": "torsion_points: complete, without repetition and sorted for every curve satisfying Mazur's theorem (an explicit hypothesis, shown for two curves in the example) with a1 or a3 odd or both 0; refuted for a1 = 2, a3 = 0 (12 entries for a group of order 6, caused by two_torsion, see C81). division_points: exactly the Q with mQ = P, for torsion P under the same hypotheses and for P of infinite order on every nonsingular curve with m >= 1; for m <= 0 the recursion of div_pol_odd never ends (C82_division_negative)."
  },
  {
   "property": "C83",
   "status": "proved",
   "theorems": [
    "C83_twoisog",
    "C83_reduced_model",
    "C83_threeisog"
   ],
   "note": "introots and pdivs are parameters with the contracts introots_right (C80) and pdivs_spec. The homomorphism property is proved for Velu's map over every mathcomp fieldType of characteristic 0. twoisog needs a1 or a3 odd or both 0 (true of every curve CurveRed holds, C83_reduced_model); for other models two_torsion itself is wrong, C81."
  },
  {
   "property": "C84",
   "status": "proved",
   "theorems": [
    "C84_grow",
    "C84_matrix",
    "C84_limit",
    "C84_second_grow_refuted"
   ],
   "note": "For every function lisog (a parameter: the l-isogenies; for l = 2, 3 see C83), every list of nonzero primes and every class of at most 26 curves. The hypotheses on lisog used for the last part of C84_matrix (symmetry, one degree per pair, the same primes for all curves of the class) are shown for the class 14a. C84_limit and C84_second_grow_refuted show the limits stated in the property."
  },
  {
   "property": "C85",
   "status": "proved",
   "theorems": [
    "C85_getelllist"
   ],
   "note": "semistable(CR) is a boolean parameter; the conductor is a parameter."
  },
  {
   "property": "C63",
   "status": "partial",
   "theorems": [
    "C63_liftmat_partial",
    "C63_flag",
    "C63_liftmat_refuted",
    "C63_overflow_refuted",
    "C63_chinese_refuted",
    "C63_chinese_overflow_refuted"
   ],
   "note": "False in full: the flag only says that each entry is a fraction, so with several denominators the common denominator can exceed p and a wrong matrix is returned as a success (witness modulo 101), or overflow a long (witness with five entries modulo 2^30-35); liftmats_chinese multiplies by dd/d with the d of the last entry (witness 1/2 modulo 101 and 103) and for 30-bit primes overflows in modrat (witness). Proved for int and long: the flag is exact, and if there is a common denominator DD < p with all |DD * num/den| < p/2 then m/dd is the rational matrix and dd divides DD."
  },
  {
   "property": "C86",
   "status": "partial",
   "theorems": [
    "C86_minim_p_partial",
    "C86_minim_3",
    "C86_minim_p_refuted",
    "C86_two_refuted",
    "C86_three_refuted"
   ],
   "note": "False as stated: without solubility over Q_p a wrong quartic is returned as a success (5x^4+125z^4 at 5), at p = 3 also for soluble quartics (x^4+27z^4), and the two exceptions claimed for p = 2 do not prevent failure (2x^4+8z^4, 2x^4+4z^4). Proved for every p <> 3 for quartics soluble over Q_p, or with p^5|I and p^7|J; for p = 3 under the conditions of Kraus that minim_all tests; for p = 2 without condition (the flag is then truthful)."
  },
  {
   "property": "C87",
   "status": "partial",
   "theorems": [
    "C87_minim_all",
    "C87_minimal_refuted"
   ],
   "note": "Proved for all lists of primes; with assume_locsol the quartic must be soluble over Q_p. Minimality at p >= 3 is false when I = 0 and p^1000 | J (or J = 0, p^600 | I), since the valuation of 0 is taken as 1000 (refuted for 5); proved otherwise (val_fits), at 3 with Kraus's conditions for nonzero discriminant."
  },
  {
   "property": "C88",
   "status": "proved",
   "theorems": [
    "C88_codes",
    "C88_order"
   ],
   "note": "32-bit int with overflow as undefined behaviour; strings are lists of ASCII codes."
  },
  {
   "property": "C89",
   "status": "proved",
   "theorems": [
    "C89_booknumber"
   ],
   "note": "The table of 146 levels is copied from the switch statement; reading outside an array is undefined behaviour."
  },
  {
   "property": "C90",
   "status": "proved",
   "theorems": [
    "C90_testd",
    "C90_allperms"
   ],
   "note": "rootsequiv itself (floating point roots) is not modelled."
  }
 ]
}