{
 "claims": [
  {
   "property": "C01",
   "status": "proved",
   "theorems": [
    "C01_hlll_preserves_lattice"
   ],
   "note": "every fpops, exit, method and thread count; histories of calls on one object included; histories include hlllp"
  },
  {
   "property": "C02",
   "status": "proved",
   "theorems": [
    "C02_transformation_exact"
   ],
   "note": "single thread, independent columns; histories include hlllp"
  },
  {
   "property": "C03",
   "status": "proved",
   "theorems": [
    "C03_transformation_staircase",
    "C03_getU_unimodular_any_threads",
    "C03_transformation_parallel_refuted",
    "C03_transformation_dependent_refuted"
   ],
   "note": "the literal claim 'exact for every thread count and rank' is refuted by two witnesses; what holds is proved"
  },
  {
   "property": "C04",
   "status": "proved",
   "theorems": [
    "C04_exact_hlll_reduces"
   ],
   "note": "exact real arithmetic (record exact in Exact.v), default reduction (method < 1), one thread, new object; both the base and getR"
  },
  {
   "property": "C05",
   "status": "proved",
   "theorems": [
    "C05_reuse_is_transparent",
    "C05_reuse_matches_reference"
   ],
   "note": "staircase hypothesis; against the mark-erasing version and against a closed-formula version; IEEE doubles satisfy the zero law only up to the sign of zero and for finite values, so for them the theorem applies when the first column reaches the last nonzero row"
  },
  {
   "property": "C06",
   "status": "proved",
   "theorems": [
    "C06_assign_is_fresh",
    "C06_assign_refuted"
   ],
   "note": "default reduction, or the long option; refuted otherwise by a witness with doubles (assign keeps the stale copy Bfp)"
  },
  {
   "property": "C07",
   "status": "proved",
   "theorems": [
    "C07_verbose_depth_balanced"
   ],
   "note": ""
  },
  {
   "property": "C08",
   "status": "proved",
   "theorems": [
    "C08_test_budget",
    "C08_test_budget_any_state"
   ],
   "note": ""
  },
  {
   "property": "C09",
   "status": "proved",
   "theorems": [
    "C09_isreduced_meaning",
    "C09_isreduced_ignores_failure_refuted"
   ],
   "note": "the meaning when the inner run succeeds, and a witness (genuine doubles) that a failing inner run is not reported"
  },
  {
   "property": "C10",
   "status": "proved",
   "theorems": [
    "C10_no_out_of_bounds",
    "C10_no_out_of_bounds_hlll",
    "C10_wide_never_completes",
    "C10_isreduced_one_column_refuted"
   ],
   "note": "n >= d (and d >= 2 for isreduced); the remaining shapes are shown to go out of bounds; histories include hlllp"
  },
  {
   "property": "C11",
   "status": "proved",
   "theorems": [
    "C11_round_trip",
    "C11_out_of_range",
    "C11_modular_refuted"
   ],
   "note": "round trips, exact domain, exact formula outside; modular behaviour refuted"
  },
  {
   "property": "C12",
   "status": "proved",
   "theorems": [
    "C12_print_int128",
    "C12_decimal_unambiguous",
    "C12_most_negative_refuted"
   ],
   "note": "all values but -2^127, shown undefined"
  },
  {
   "property": "C13",
   "status": "proved",
   "theorems": [
    "C13_lift_truncate",
    "C13_lift_truncate_long",
    "C13_long_silent_overflow_refuted",
    "C13_lift_truncate_128"
   ],
   "note": "the three overloads; the silent overflow of the long variant is exhibited"
  },
  {
   "property": "C14",
   "status": "proved",
   "theorems": [
    "C14_parallel_products_exact",
    "C14_transposed_parallel_product_exact"
   ],
   "note": "every schedule, race freedom included; dc C >= 1"
  },
  {
   "property": "C15",
   "status": "proved",
   "theorems": [
    "C15_parallel_size_update",
    "C15_parallel_equals_model",
    "C15_slices_partition"
   ],
   "note": "every schedule, race freedom, slices partition the rows, agreement with the whole-object model"
  },
  {
   "property": "C16",
   "status": "proved",
   "theorems": [
    "C16_blocks_tile",
    "C16_put_get_identity",
    "C16_reassemble"
   ],
   "note": "also for block counts larger than the dimensions (empty blocks)"
  },
  {
   "property": "C17",
   "status": "proved",
   "theorems": [
    "C17_pmatprod_in_first_rows",
    "C17_pmatprod_in_divisible",
    "C17_pmatprod_in_sequential",
    "C17_pmatprod_in_any_blocks_refuted"
   ],
   "note": "exact rows multiplied, every schedule; wrong for every S not dividing the rows"
  },
  {
   "property": "C18",
   "status": "proved",
   "theorems": [
    "C18_relation_candidate"
   ],
   "note": "full loop of relation_lll with the inner hlll, truncation, confidence test; FPLLL as an external function under its contract"
  },
  {
   "property": "C19",
   "status": "proved",
   "theorems": [
    "C19_nullspace_lll"
   ],
   "note": "both variants (unique shift, Lehmer loop), the three lllmethods; fplll as an external function under its contract"
  },
  {
   "property": "C20",
   "status": "proved",
   "theorems": [
    "C20_decomp_consistent"
   ],
   "note": "every exit of ZFgas::decomp, both transformation modes, any floating-point type"
  },
  {
   "property": "C21",
   "status": "proved",
   "theorems": [
    "C21_lehmer_zero_shift",
    "C21_lehmer_lattice",
    "C21_lehmer_lattice_full_rank",
    "C21_lehmer_terminates",
    "C21_lehmer_negative_shift_diverges"
   ],
   "note": "inner hlll modelled (every fpops); products sequential (parallel ones: C14); int overflow of def+lshift not modelled"
  },
  {
   "property": "C22",
   "status": "proved",
   "theorems": [
    "C22_l1_transformation",
    "C22_l1_recursion_terminates"
   ],
   "note": "lllmethod = HLLL only (FPLLL is an external library); trunc with its double expressions"
  },
  {
   "property": "C23",
   "status": "proved",
   "theorems": [
    "C23_matrix_structure"
   ],
   "note": ""
  },
  {
   "property": "C24",
   "status": "proved",
   "theorems": [
    "C24_seysen_blocks_cover"
   ],
   "note": ""
  },
  {
   "property": "C25",
   "status": "proved",
   "theorems": [
    "C25_long_flag_transparent_default",
    "C25_long_flag_seysen_refuted"
   ],
   "note": "default reduction transparent; Seysen with NO_LONG exhibited to differ (converts the stale member x)"
  },
  {
   "property": "C26",
   "status": "proved",
   "theorems": [
    "C26_slll_padded_lattice",
    "C26_slll_lattice",
    "C26_slll_lattice_padding",
    "C26_slll_lattice_refuted"
   ],
   "note": "padded lattice for all histories of hlll/rotate, any fpops; lattice of A when 2S | d or when the padding rows of the first d columns are zero; refuted otherwise by a witness with doubles"
  },
  {
   "property": "C27",
   "status": "proved",
   "theorems": [
    "C27_hlll_wrapper",
    "C27_hlll_long",
    "C27_hlll_int128",
    "C27_hlll_long_refuted",
    "C27_slll_sublattice",
    "C27_slll_wrap_sublattice",
    "C27_slll_wrap_small",
    "C27_gap_recursion",
    "C27_slll_wrap_refuted"
   ],
   "note": "staged hlll in the three integer types, slll_wrap / slll<mpz_t> (dthreshold >= 1); two refutations (entries beyond 64 bits; lattice lost through the padding of slll)"
  },
  {
   "property": "C28",
   "status": "proved",
   "theorems": [
    "C28_rotate"
   ],
   "note": ""
  },
  {
   "property": "C29",
   "status": "proved",
   "theorems": [
    "C29_blevel",
    "C29_blevel_refuted"
   ],
   "note": "literal claim 'every column is written' refuted when bs does not divide d"
  },
  {
   "property": "C30",
   "status": "proved",
   "theorems": [
    "C30_set_range_exact",
    "C30_set_range_refuted"
   ],
   "note": "exact set of copied columns; documentation refuted for every n, d1 < d2"
  },
  {
   "property": "C31",
   "status": "proved",
   "theorems": [
    "C31_put_then_reduce",
    "C31_shift_then_reduce",
    "C31_put_transformation",
    "C31_put_stale_structure_refuted",
    "C31_shift_keeps_U_refuted"
   ],
   "note": "mixed_put and shiftRT (MatrixRZ objects) not included"
  },
  {
   "property": "C32",
   "status": "proved",
   "theorems": [
    "C32_setId_isId",
    "C32_transpose",
    "C32_products",
    "C32_empty_product_undefined",
    "C32_matcmp_exact",
    "C32_matcmp_up_to_sign_refuted"
   ],
   "note": ""
  },
  {
   "property": "C33",
   "status": "proved",
   "theorems": [
    "C33_trunc"
   ],
   "note": "the two powers of ten are the C double expressions, with binary64 rounding (Flocq)"
  },
  {
   "property": "C34",
   "status": "proved",
   "theorems": [
    "C34_getU_getR_shape"
   ],
   "note": ""
  },
  {
   "property": "C35",
   "status": "proved",
   "theorems": [
    "C35_lcond_restores",
    "C35_lcond_leaves",
    "C35_lcond_prec_refuted",
    "C35_isreduced_restores",
    "C35_isreduced_prec_refuted"
   ],
   "note": "lcond_restores/isreduced_restores: the modes that restore; *_refuted: the modes that do not (the restoring statement after a return is unreachable; getprec of double is constant)."
  },
  {
   "property": "C36",
   "status": "proved",
   "theorems": [
    "C36_dd_error_adds",
    "C36_dd_exact_iff",
    "C36_dd_precise_refuted"
   ],
   "note": "binary64 rounding (Flocq); the claim that the double-double is more precise is refuted"
  },
  {
   "property": "C37",
   "status": "proved",
   "theorems": [
    "C37_column_operations",
    "C37_bounds",
    "C37_colswap",
    "C37_exact",
    "C37_matprod",
    "C37_access",
    "C37_set_get_refuted"
   ],
   "note": "every arithmetic of the real part for the column operations; exact reals for the values and products; the inconsistency of set/get is a refutation"
  },
  {
   "property": "C38",
   "status": "proved",
   "theorems": [
    "C38_first_vector_short"
   ],
   "note": "from C04, for every nonzero vector of the input lattice"
  },
  {
   "property": "C39",
   "status": "proved",
   "theorems": [
    "C39_matrix_cast"
   ],
   "note": ""
  },
  {
   "property": "C40",
   "status": "proved",
   "theorems": [
    "C40_pmatprod_exact",
    "C40_more_blocks_than_columns_undefined",
    "C40_pmaprod_diag_even_race_refuted",
    "C40_pmaprod_diag_even_atomic_partial"
   ],
   "note": "pmaprod_diag_even: race proved for every t >= 2; product proved only under atomic accesses"
  },
  {
   "property": "C41",
   "status": "proved",
   "theorems": [
    "C41_uninitialised_memory_not_read",
    "C41_seysen_no_long_refuted"
   ],
   "note": "default reduction, or the long option; Seysen + NO_LONG refuted by a witness"
  },
  {
   "property": "C42",
   "status": "proved",
   "theorems": [
    "C42_exact_never_gives_up"
   ],
   "note": "exact real arithmetic, default reduction, one thread"
  },
  {
   "property": "C43",
   "status": "proved",
   "theorems": [
    "C43_exact_terminates",
    "C43_exact_terminates_length"
   ],
   "note": "with the rounding of halves to zero (round-half-even); explicit bound on the iterations; C43_exact_terminates_length: bound in terms of the lengths of the input columns, log(M) d(d+1)/2 / log(1/delta)"
  },
  {
   "property": "C44",
   "status": "proved",
   "theorems": [
    "C44_exact_swaps",
    "C44_exact_swaps_length"
   ],
   "note": "any outcome of the call, also when the budget ends it; C44_exact_swaps_length: in terms of the lengths of the input columns"
  },
  {
   "property": "C45",
   "status": "proved",
   "theorems": [
    "C45_nullspace_direct"
   ],
   "note": "any floating-point behaviour"
  },
  {
   "property": "C46",
   "status": "proved",
   "theorems": [
    "C46_nullspace_hjls"
   ],
   "note": "any floating-point behaviour"
  },
  {
   "property": "C47",
   "status": "proved",
   "theorems": [
    "C47_fptuple_lll"
   ],
   "note": "any floating-point behaviour"
  },
  {
   "property": "C48",
   "status": "proved",
   "theorems": [
    "C48_block_loop",
    "C48_nbswaps_refuted",
    "C48_pmatprod"
   ],
   "note": "blocks loop, even and odd phases, and pmatprod; nbswaps race exhibited"
  },
  {
   "property": "C49",
   "status": "proved",
   "theorems": [
    "C49_slll_getU_refuted"
   ],
   "note": "the positive claim is refuted by a witness with doubles"
  },
  {
   "property": "C50",
   "status": "proved",
   "theorems": [
    "C50_lcond_exact",
    "C50_lcond_uninitialised_refuted"
   ],
   "note": "exact arithmetic (real numbers); the *_refuted theorem shows, with doubles, the dependence on uninitialised memory (iR below the diagonal)."
  },
  {
   "property": "C51",
   "status": "proved",
   "theorems": [
    "C51_lcond_triangular",
    "C51_lcond_triangular_refuted"
   ],
   "note": "exact arithmetic; the bound for |B(i,j)|<=|B(i,i)|, and the refutation without that hypothesis."
  },
  {
   "property": "C52",
   "status": "proved",
   "theorems": [
    "C52_ratio_exact",
    "C52_average_refuted"
   ],
   "note": "exact arithmetic with exact log2 and pow; the *_refuted theorem: av_ratio is not the average of the d-1 ratios."
  },
  {
   "property": "C53",
   "status": "proved",
   "theorems": [
    "C53_mixed_structure",
    "C53_mixed_trunc",
    "C53_mixed_trunc_defined"
   ],
   "note": "the two double expressions for the exponents of ten are arbitrary functions"
  },
  {
   "property": "C54",
   "status": "proved",
   "theorems": [
    "C54_decomposition",
    "C54_exact",
    "C54_return"
   ],
   "note": "any arithmetic for the integer part; exact RT (reals) for getfgas"
  },
  {
   "property": "C55",
   "status": "proved",
   "theorems": [
    "C55_columns",
    "C55_primitive",
    "C55_exact"
   ],
   "note": "any arithmetic for primitivity; exact RT for |A C| <= epsilon"
  },
  {
   "property": "C56",
   "status": "proved",
   "theorems": [
    "C56_set_unused",
    "C56_set_refuted"
   ],
   "note": "positive on unused objects; refuted (witness with doubles) on used ones"
  },
  {
   "property": "C57",
   "status": "proved",
   "theorems": [
    "C57_tested_value",
    "C57_primitive"
   ],
   "note": "the inner reduction and the mpfr gap test are arbitrary functions"
  },
  {
   "property": "C58",
   "status": "proved",
   "theorems": [
    "C58_returns",
    "C58_shift_zero_never_returns"
   ],
   "note": "the inner reduction is assumed to return (long entries)"
  },
  {
   "property": "C59",
   "status": "proved",
   "theorems": [
    "C59_parameters_ignored"
   ],
   "note": "negative finding"
  },
  {
   "property": "C60",
   "status": "proved",
   "theorems": [
    "C60_add",
    "C60_sub",
    "C60_mul",
    "C60_div",
    "C60_sqrt",
    "C60_defined",
    "C60_add_nearest_refuted",
    "C60_zero_product_refuted"
   ],
   "note": "mantissas are Flocq binary floats (64 bits, emax 16384); int overflow is undefined behaviour"
  },
  {
   "property": "C61",
   "status": "proved",
   "theorems": [
    "C61_cmp",
    "C61_sgn",
    "C61_zero_refuted",
    "C61_absorb_refuted"
   ],
   "note": "negative part: zeros that are not normalised"
  },
  {
   "property": "C62",
   "status": "proved",
   "theorems": [
    "C62_round",
    "C62_floor",
    "C62_ceil",
    "C62_beyond_refuted",
    "C62_frac_refuted"
   ],
   "note": "negative part beyond 2^53"
  },
  {
   "property": "C63",
   "status": "proved",
   "theorems": [
    "C63_small",
    "C63_large",
    "C63_long_double",
    "C63_minus_one_refuted",
    "C63_range_refuted"
   ],
   "note": "sprintf modelled by the number of bytes written; mpz_set_str o sprintf is the identity on integers"
  },
  {
   "property": "C64",
   "status": "proved",
   "theorems": [
    "C64_get_si_exp",
    "C64_integers",
    "C64_truncates_refuted",
    "C64_zero_refuted"
   ],
   "note": "discharges the hypothesis expo_nonneg of C01 for ldpe_t"
  },
  {
   "property": "C65",
   "status": "proved",
   "theorems": [
    "C65_same_lattice_any_matrix_class",
    "C65_transform_any_matrix_class",
    "C65_MatrixPE_lattice",
    "C65_MatrixPE_transform",
    "C65_defined_on_independent_refuted"
   ],
   "note": "the run on (1,0,0),(0,2,1) reaches an int overflow (refuted claim); with wraparound it ends with the right answer"
  },
  {
   "property": "C66",
   "status": "proved",
   "theorems": [
    "C66_get",
    "C66_get_non_normalized",
    "C66_set",
    "C66_set_zero",
    "C66_setcol_integers",
    "C66_setcol_numbers",
    "C66_setcol_copy",
    "C66_colswap",
    "C66_addcol",
    "C66_subcol",
    "C66_submulcol",
    "C66_fmasub",
    "C66_div",
    "C66_scalarprod",
    "C66_norm_sq",
    "C66_norm",
    "C66_length_zero",
    "C66_classes",
    "C66_other_rows_kept_refuted"
   ],
   "note": "every operation used by hlll.cc; the variants of setcol for long, __int128_t, double, mpfr and mixed columns and normalize are not modelled"
  },
  {
   "property": "C67",
   "status": "proved",
   "theorems": [
    "C67_lock_step",
    "C67_lock_step_histories",
    "C67_plain_class",
    "C67_MatrixPE_reduces",
    "C67_MatrixPE_terminates"
   ],
   "note": "assign is excluded from the histories (it keeps stale rows, C06); the MatrixPE part is for exact mantissas, the rounding of each operation is C66"
  },
  {
   "property": "C68",
   "status": "proved",
   "theorems": [
    "C68_isreduced_decides",
    "C68_isreduced_terminates",
    "C68_criterion"
   ],
   "note": "exact arithmetic; with rounding the verdict is heuristic"
  },
  {
   "property": "C69",
   "status": "proved",
   "theorems": [
    "C69_first_report",
    "C69_same_verdict",
    "C69_second_report_refuted"
   ],
   "note": "first report exact; the second report is refuted (C69_second_report_refuted)"
  },
  {
   "property": "C70",
   "status": "proved",
   "theorems": [
    "C70_decimal_values",
    "C70_word_values",
    "C70_long_type",
    "C70_options",
    "C70_same_lattice",
    "C70_exit_status",
    "C70_reduces",
    "C70_reduced_with_doubles_refuted",
    "C70_isreduced_program"
   ],
   "note": "text format of cin and cout not modelled; exit status and double behaviour refuted where they fail"
  },
  {
   "property": "C71",
   "status": "proved",
   "theorems": [
    "C71_knapsack",
    "C71_block_knapsack",
    "C71_uniform",
    "C71_shifted",
    "C71_coppersmith",
    "C71_alpha",
    "C71_read",
    "C71_unknown_type",
    "C71_no_arguments"
   ],
   "note": "t, n, nq, N, Nq are filled by fplll and only their shape is used; gen_intrel is modelled as documented in fplll"
  },
  {
   "property": "C72",
   "status": "proved",
   "theorems": [
    "C72_powers",
    "C72_relation",
    "C72_negative_difference",
    "C72_simultaneous_powers",
    "C72_simultaneous_relation"
   ],
   "note": "exact real log and exp (None for NaN); positive exponents; r, s <= 0 not covered"
  },
  {
   "property": "C73",
   "status": "proved",
   "theorems": [
    "C73_seysen_reduces",
    "C73_first_vector_short",
    "C73_never_gives_up",
    "C73_terminates",
    "C73_terminates_length",
    "C73_swaps",
    "C73_no_long_refuted"
   ],
   "note": "one thread and the LONG option; exact arithmetic; without LONG refuted (C73_no_long_refuted)"
  },
  {
   "property": "C74",
   "status": "proved",
   "theorems": [
    "C74_threads_and_transform",
    "C74_exact_parallel_reduces",
    "C74_exact_parallel_terminates",
    "C74_seysen_threads_refuted"
   ],
   "note": "SEYSEN with several threads refuted (C74_seysen_threads_refuted)"
  },
  {
   "property": "C75",
   "status": "proved",
   "theorems": [
    "C75_hlll_certifies"
   ],
   "note": "d >= 2 columns; SEYSEN certifies only the Lovasz test (its size test is commented out in the code)"
  },
  {
   "property": "C76",
   "status": "proved",
   "theorems": [
    "C76_hlllp_certifies",
    "C76_hlllp_is_hlll",
    "C76_hlllp_preserves"
   ],
   "note": "the constant 0.501 is a parameter c501; compt only prints and is left out"
  },
  {
   "property": "C77",
   "status": "proved",
   "theorems": [
    "C77_hlll_bounds"
   ],
   "note": "instances: exact reals (u = 0) and MPFR with p >= 2 bits and unbounded exponents (Flocq FLX)"
  },
  {
   "property": "C78",
   "status": "proved",
   "theorems": [
    "C78_backward_stable",
    "C78_error_size",
    "C78_nearly_reduced"
   ],
   "note": "instances: exact arithmetic (any u) and p-bit MPFR numbers with unbounded exponents (Flocq FLX, p >= 2), for which every staircase structure is covered; no zero on the computed diagonal is a hypothesis"
  },
  {
   "property": "C79",
   "status": "proved",
   "theorems": [
    "C79_output_no_longer"
   ],
   "note": "exact arithmetic (C04 kind), method HSIZE, one thread; fresh object"
  },
  {
   "property": "C80",
   "status": "proved",
   "theorems": [
    "C80_word_right_or_undefined",
    "C80_mpz_is_hlll",
    "C80_long_double_refuted"
   ],
   "note": "entry points up to hlll; the conversion of a quotient to the integer type is the 64-bit one of set_f(dpe_t)/get_si as modelled in Machine.v; the long double claim is refuted on a 2x2 input"
  },
  {
   "property": "C81",
   "status": "proved",
   "theorems": [
    "C81_no_overflow"
   ],
   "note": "exact arithmetic, HSIZE, without TRANSFORM, one thread; instances 64-bit and 128-bit words, long double up to 2^64, mpz_t"
  },
  {
   "property": "C82",
   "status": "proved",
   "theorems": [
    "C82_nullspace_indirect"
   ],
   "note": "any behaviour of the two floating-point types; the generating set entries never set by fgasgen are arbitrary"
  },
  {
   "property": "C83",
   "status": "proved",
   "theorems": [
    "C83_return",
    "C83_one_relation",
    "C83_first_round",
    "C83_several_refuted",
    "C83_restart_refuted"
   ],
   "note": "C83_return/C83_one_relation with exact RT arithmetic and any inner type; C83_first_round for any arithmetic; two negative results by execution with doubles (entries below 2^63)"
  },
  {
   "property": "C84",
   "status": "proved",
   "theorems": [
    "C84_tested_value",
    "C84_primitive",
    "C84_returns",
    "C84_shift_zero_never_returns"
   ],
   "note": "for one row (the source: m = 1 for the moment) with ZT = long; the inner reduction and the gap test are arbitrary functions; C84_returns assumes that the inner reduction returns, with entries in long"
  },
  {
   "property": "C85",
   "status": "proved",
   "theorems": [
    "C85_magnitude",
    "C85_modular_round_trip"
   ],
   "note": "NTL and GMP byte functions by their documentation; mpz_nextprime assumed to return a prime above its argument; the code is compiled only with NTL_GMP_LIP"
  },
  {
   "property": "C86",
   "status": "proved",
   "theorems": [
    "C86_zfgas",
    "C86_fgas",
    "C86_nullspace",
    "C86_hjls",
    "C86_square_refuted",
    "C86_again_refuted",
    "C86_fgas_square_refuted"
   ],
   "note": "any floating-point types; dimensions with 0 < d < n; decomp on a new Fgas object after any size reductions of existing columns; negative parts by execution with doubles"
  },
  {
   "property": "C87",
   "status": "proved",
   "theorems": [
    "C87_slll_safe",
    "C87_more_segments_refuted",
    "C87_rotate_refuted"
   ],
   "note": "any floating-point types; calls with at most the constructor's number of segments; negative parts by execution with doubles"
  },
  {
   "property": "C88",
   "status": "proved",
   "theorems": [
    "C88_hlll_wrappers",
    "C88_slll_wrap",
    "C88_slll_wrapper",
    "C88_blevel",
    "C88_lehmer",
    "C88_l1",
    "C88_nullspace_lll",
    "C88_relation_lll",
    "C88_fptuple_lll",
    "C88_wide_refuted"
   ],
   "note": "any floating-point types; the external fplll call is a parameter that keeps the dimensions"
  },
  {
   "property": "C89",
   "status": "proved",
   "theorems": [
    "C89_ends",
    "C89_defined",
    "C89_reduced",
    "C89_first_vector_short",
    "C89_long",
    "C89_fuel"
   ],
   "note": "exact arithmetic in both stages; the bound 2^32-1 on the number of tests is a hypothesis of reducedness (the run follows fewer loop turns); termination and absence of undefined behaviour need no bound"
  },
  {
   "property": "C90",
   "status": "proved",
   "theorems": [
    "C90_row",
    "C90_true_relation",
    "C90_lll_value",
    "C90_relation_value",
    "C90_lll_bound",
    "C90_lll_ends",
    "C90_lll_ends_length",
    "C90_lll_refuted"
   ],
   "note": "mpfr numbers are dyadic rationals with default precision p; the claim that a relation in the basis is returned is refuted on a concrete run; C90_lll_ends_length bounds the turns from the sizes of the L_j"
  },
  {
   "property": "C91",
   "status": "proved",
   "theorems": [
    "C91_lehmer_reduced",
    "C91_first_vector_short",
    "C91_lehmer_ends",
    "C91_lehmer_defined",
    "C91_delta_ignored"
   ],
   "note": "exact arithmetic, truncate = false; fewer than 2^32-1 Lovasz tests per inner reduction; termination is relative to a bound on the potential of the matrices visited (explicit inductive predicate), shown satisfiable on a two-step run"
  },
  {
   "property": "C92",
   "status": "proved",
   "theorems": [
    "C92_double_certifies"
   ],
   "note": "IEEE binary64 through the primitive floats of Coq (axioms of Coq.Floats.FloatAxioms) and Flocq; hypotheses are tests on the returned R and basis; like C75 it is about the computed R, not the exact factor of the basis"
  },
  {
   "property": "C93",
   "status": "proved",
   "theorems": [
    "C93_double_backward_stable",
    "C93_double_certificate"
   ],
   "note": "IEEE binary64 (primitive floats read through Flocq), exponent range included. C93_double_backward_stable: the backward error of C78 with explicit constants; C93_double_certificate: joined with the inequalities of C92. Hypotheses after the call are tests on getbase/getR; C93_case exhibits a run passing them. Same structure hypothesis as C05 (for doubles: the first column reaches the last non zero row)."
  },
  {
   "property": "C94",
   "status": "proved",
   "theorems": [
    "C94_shift_bound",
    "C94_kernel",
    "C94_ends",
    "C94_ends_length"
   ],
   "note": "unique shift (lsigma = 0), HLLL, exact arithmetic; the limit 2^32-1 on the number of tests must not be reached (C94_ends_length bounds them). C94_case meets every hypothesis and has a concrete fuel."
  },
  {
   "property": "C95",
   "status": "proved",
   "theorems": [
    "C95_return",
    "C95_printed",
    "C95_kernel",
    "C95_first_round",
    "C95_return_refuted"
   ],
   "note": "Model NullFp.v on top of Restart.v (C83). The scaling by the largest entry is undone in exact RT arithmetic; the fixed return value is stated for every arithmetic; the negative part runs the model over doubles."
  },
  {
   "property": "C96",
   "status": "proved",
   "theorems": [
    "C96_R_factor",
    "C96_lower_bound",
    "C96_relation_bound"
   ],
   "note": "C96_R_factor, C96_lower_bound and C96_relation_bound, for every way the call can end, in exact arithmetic with FT and RT the reals; the diagonal is assumed to be without zero (a test on what getR returns). HjlsBound.v: the columns < d of R stay the images of those of F by the reflectors stored in V. Cases: an exact run, and a stopped run over doubles whose bound 4.76 can be compared with the shortest relation (6)."
  },
  {
   "property": "C97",
   "status": "proved",
   "theorems": [
    "C97_decomp_ends",
    "C97_relation_ends",
    "C97_decomp_returns",
    "C97_relation_returns"
   ],
   "note": "C97_decomp_ends and C97_relation_ends (the number of turns), C97_decomp_returns and C97_relation_returns (the call returns, with which status), with FT and RT the reals and these laws on the types: no rounding, nearest integer of [-1/2,1/2] is 0, conversion to an integer off by at most 1, and the gap test of a quotient 0 succeeds. Proof: the R factor of the left columns (RGram.v), the turns as swaps followed by size reductions (HjlsTurn.v, HjlsTurn2.v), a potential divided by at least 1/(1/4+1/gamma^2) per turn and bounded below by the test on the bit size (HjlsEnd.v), and the case of a null last diagonal entry (HjlsHit.v: the last entry of Y is then 0, so that the column is set aside). Later columns (target dimension > 1) and dec > 1 are not covered."
  },
  {
   "property": "C98",
   "status": "proved",
   "theorems": [
    "C98_found_or_none",
    "C98_complete",
    "C98_relations_hjls",
    "C98_uninitialised_refuted"
   ],
   "note": "C98_found_or_none, C98_complete, C98_relations_hjls, with FT and RT the reals and the laws of C97, epsilon <= 0 and a gap test (confidence gap on a quotient) that succeeds exactly on the zeros. Proof (HjlsFind.v): without a hit the last entry of Y stays non-zero and the diagonal gives the bound of C96; the stop on the bit size gives the lower bound on the diagonal. For relations_hjls the entries of the work matrix that hjls.cc 77-81 leaves uninitialised are 0; C98_uninitialised_refuted: with NaNs there (new mpfr variables) a search that ends within 60 turns is not finished after 1000. Case: the vector (3,5), relation (5,-3)."
  },
  {
   "property": "C99",
   "status": "proved",
   "theorems": [
    "C99_given",
    "C99_unknown",
    "C99_check",
    "C99_check_ends"
   ],
   "note": "C99_given, C99_unknown, C99_check, C99_check_ends, for any arithmetic and exponent functions. oldcond starts at 0 (hlll.cc 2696), so a first value 0 is accepted without a second computation: the theorem says so. That CHECK ends is not claimed (the values may never agree). Cases: an object over doubles."
  },
  {
   "property": "C100",
   "status": "proved",
   "theorems": [
    "C100_isreduced_precision",
    "C100_isreduced_anywhere"
   ],
   "note": "C100_isreduced_precision, C100_isreduced_anywhere. IsredPrec.v: setprec reallocates every floating-point member and sets Bfp to zero, householder() only changes R and V, hence the inner hlll starts from an object to which the transparency theorem (C05/C06) applies. object_on: the integer data and configuration of the object, new floating-point members, no test counted. Cases over doubles: a new object (-1) and the same after hlll (0)."
  }
 ]
}