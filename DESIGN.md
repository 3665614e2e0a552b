# Formal model of gilvillard/hplll in Rocq (Coq 8.16.1) — design

## 1. Trusted base (overview; the per-theorem `Print Assumptions` table is in section 5)

* Coq's kernel (8.16.1), and `vm_compute` for concrete witnesses and examples.
* No axiom of our own, no `Admitted`, no functor/module type.
* Standard-library axioms only where real numbers are used (exact-arithmetic
  theorems) and Coq's primitive floats/63-bit integers in the executable
  `double` instance.  Everything about integer matrices is axiom free.
* The correspondence between /repo and the Gallina transcription, which is by
  inspection: every definition cites file and lines.

## 2. How the code is modelled

* **Matrices.**  `hplll::matrix<T>` and fplll's `Matrix<T>`/`ZZ_mat<T>` are both
  `list (list T)`, a list of columns (`mat.h` stores columns; fplll rows — the
  difference is not observable through `(i,j)`).
* **Undefined behaviour.**  Code is written in a result monad
  `res A = Ok a | UB | NoFuel`.  Every element access, column access and vector
  operation carries the bounds the C++ needs; outside them the result is `UB`,
  never a default value.
* **Loops.**  `while` loops take explicit fuel and yield `NoFuel` when it runs
  out; theorems speak of every fuel and of runs that return.
* **Floating point.**  The floating-point type `FT` is a *parameter*: a record
  `fpops` of arbitrary functions (add, mul, div, sqrt, rnd, comparisons, integer
  conversions ...).  A theorem quantified over all `fpops` holds for double, long
  double, dpe, mpfr at any precision, NaNs and wrong results included.  Two
  instances are used: exact reals (exact-arithmetic theorems) and Coq's
  primitive IEEE doubles (witnesses, executable examples).
* **Uninitialised memory.**  `R`, `V`, `VR`, `Rkept`, `normB2`, `toR` start with
  arbitrary contents (a `junk` parameter).
* **Integers.**  `ZT = mpz_t`: unbounded `Z`.  `long`/`__int128` appear in the conversion
  functions, and in Machine.v, which repeats hlll over a parametric integer type (words with
  undefined overflow, `long double` rounded to 64 bits, `mpz_t`).
* **Threads.**  `#pragma omp parallel for` is modelled by lists of memory
  operations and an arbitrary interleaving relation.

## 3. Plan per property

| id | model | proof |
|----|-------|-------|
| C01 | `Hlll.v`: constructor, hlll, hsizereduce, seysenreduce, size_update(_R), psize_update_B, seysen_update, householder_r/v | hlll refines a transition system of integer column operations; invariant: B = A*V, V unimodular, structure bounds non-zeros |
| C02 | same | same invariant on U, structure[i] >= i from independence |
| C03 | same | what holds for U in the remaining cases is proved; the literal claim refuted by executable witnesses |
| C04 | same, exact reals | loop invariant on the R factor |
| C05 | whole call | simulation of the run by a run without any cache (Fresh.v, Cache*.v): invariant linking marks, kept products and copies to the exact columns |
| C06, C41 | assign, constructor | corollaries of the same simulation; refuted by double witnesses outside the stated domain |
| C07, C08 | hlll counters | loop invariant |
| C09 | isreduced | from C08; refuted for abnormal exits |
| C10 | bounds checks in the monad | invariant: never `UB` when n >= d |
| C11, C12, C36, C39 | Int128.v | arithmetic in Z with explicit wrap |
| C13, C30, C32, C33, C16, C17, C23 | MatOps.v | pointwise specifications |
| C14, C15, C40 | Par.v: interleavings | disjoint footprints commute |
| C27, C29 | Wrap.v: wrappers.h, slll-wrap.h, block.h over the hlll and slll models (conversions of MachInt) | concatenation of sublattices (WrapFacts.v), history of one object for blevel; refutations by double witnesses |
| C18, C19, C21, C22 | drivers over an abstract reduction step justified by C01/C02 | invariants of the lifting loop |
| C20 | Zfgas.v | elementary operation invariants |
| C24, C25 | seysenreduce | induction on binary digits; stale `x` refuted |
| C26, C28, C49 | Slll.v: SLattice constructor (padding), hlll, rotate, householder, seysenreduce, hsizereduce, getbase, getU | unimodular block operations on the padded matrix; corner of a unimodular matrix (SlllPad.v); refutations by double witnesses |
| C35 | Lcond.v: lcond with all its flags and the default precision as state, isreduced_prec | case analysis on the flags; refutations by double witnesses |
| C50, C51 | Lcond.v: lcond(ANY / TRIANGULAR_PROPER) | exact arithmetic: Householder gives an R factor (ExactHH.v), Higham's Method 1 gives the inverse up to row signs (LcondFacts.v), R factors unique up to row signs, triangular bound (LcondTri.v) |
| C52 | Lcond.v: ratio | same, RatioExact.v |
| C48 | SlllPar.v: accesses of the block loop and of pmatprod | disjoint footprints; lost update for nbswaps |
| C45, C46, C47 | Nullspace.v, Relation.v | corollaries of the ZFgas/driver invariants |
| C37, C53 | MatRZ.v: matmixed.h over an arbitrary arithmetic of the real part | entry-wise on the stacked matrix |
| C54, C55, C56 | Fgas.v, Hjls.v: decomp.cc and relations_hjls, arbitrary RT and FT | the run is a sequence of column operations; block triangular invariant (FgasInt.v); exact RT (FgasExact.v) |
| C57, C58, C59 | RelationF.v: relation, relation_f_z, detect_lift_f_z over an arbitrary inner reduction | invariant first row = input . lower part; 50-bit test bounds the long products |
| C60, C61, C62, C63, C64 | Ldpe.v: ldpe.h and the conversions of nr-ld.cpp on Flocq floats, int overflow = UB | LdpeFacts.v, LdpeConv.v: exact alignment, FLT = FLX in the normal range |
| C65 | HlllM.v: hlll over records of scalar and matrix operations; Matpe.v: matpe.h | HlllMInt.v: refinement to elementary column steps; GObject.v: histories |
| C66 | Matpe.v on Flocq floats | MatpeFacts.v: error of each operation from Flocq's rounding lemmas |
| C67 | HlllM.v over any class; Plain.v and Matpe.v as instances | Sim*.v: simulation relating only the entries still to be read; laws proved in Plain.v, MatpeExact.v; C04, C43 transferred |
| C68 | Hlll2.isreduced | IsredExact.v, IsredTop.v: a run without swap gives a unitriangular T; a failed Lovasz test refutes every T |
| C69 | Isred2.v (isreduced with its output) | IsredRep.v: loop invariants for each printed number; doubles for the refutation |
| C70 | Program.v (argument parser, main of both programs) over HlllM.v, Hlll2.v | induction on the arguments; C65, C67, C68 |
| C71 | Program.v (generators; draws as an arbitrary function) | loop invariants in ProgramFacts.v; triangular and rank arguments |
| C72 | Gen3r2s.v (gen3r2s, gen3r2s7t5u over abstract log/exp) | powers of X-Y are integer combinations of r s monomials; pigeonhole (LinDep) |
| C73 | SeysenExact.v, SpecSeysen.v, SeysenTop.v | the loop invariant of C04 with the reduction step as a parameter (ExactTop.v), block back-substitution |
| C74 | Threads.v | simulation by the one-thread, no-transformation object; the two phases of the parallel update commute |
| C75, C76 | Hlllp.v, SpecCert.v, Certify.v | frame lemmas per column, last pass of each reduction, loop invariant on hlllp (hlll is an instance) |
| C77 | Rounded.v (standard model, Flocq FLX instance) over C75 | error propagation in each test |
| C78 | SpecBack.v (standard model, backward error vocabulary); BackErr/BackCol (rounding error of one reflector, of a column), BackLoop (equations kept by the loop in any arithmetic), BackTop | invariant of the reference loop (C05), Householder error analysis, errors moved to the basis through the exact reflectors |
| C79, C81 | Growth.v (norm of a column through size reduction and swaps, by the diagonal of R), GrowthM.v (every intermediate value of a pass) | invariant of the exact loop: diagonal maximum does not increase, each pass multiplies by at most 5/2 before the column is reduced |
| C80 | Machine.v (hlll over a parametric integer type: words with undefined overflow, long double rounding to 64 bits, mpz_t), MachRef.v | lock-step simulation "equal or undefined"; long double refuted by running a 2x2 input |
| C46, C82 | ZFgas.v/NullHjls.v (block invariant of the decompositions with dec > 0; fgasgen, nullspace_indirect_decomp) | loop invariant "transformation unimodular, product kept, last columns annihilated" |
| C83 | Restart.v (restarting_hjls with its inner lower-precision Fgas object) | return value from the final test; first round by the Fgas invariant; negative parts by execution |
| C84 | Lift.v (lift_z over an arbitrary inner reduction, loop shared with RelationF.v) | invariant first row = input . lower part; progress of the defect |
| C85 | Ntl.v (byte strings, ZZ_p representatives) | induction on the bytes; modular arithmetic |
| C86 | FgasSafe.v, ZFgasSafe.v, FgasSafe2.v (every access of Fgas.v, ZFgas.v, Nullspace.v, Hjls.v, Restart.v is guarded) | shape invariant through all loops; negative parts by execution |
| C87 | SlllSafe.v (every access of Slll.v, including the padded dimension and swapstab, is guarded) | shape invariant through the two phases of each iteration |
| C88 | DriverSafe.v (over Wrap.v, Lehmer.v, Nullspace.v, Relation.v) | C10/C87 at every inner reduction plus index bounds of the drivers |
| C89 | Fuel.v, WrapExact.v (over Wrap.v, ExactTop.v, SeysenTop.v) | independence of [C \| rest], C04/C73 at every stage; fuel monotonicity by induction |
| C90 | FPTuple.v (over Relation.v) | rounding error of the scaled row, C47/C18 for the candidate, C38 for the bound; counterexample by computation |
| C91 | Stale.v, StaleTop.v, LehmerExact.v (over Lehmer.v, Cache*.v, ExactTop.v) | what hlll leaves in the floating-point copy (zeros below the structure, copy above), hence the re-assigned object is ready; induction on the lifting steps |
| C92 | DblReal.v (primitive floats read as reals through Flocq), PropDouble.v over C75 | each test of hlll is turned into a real inequality, with overflow, underflow and NaN |
| C93 | DblErr.v, DblHV.v, DblCol.v, DblTop.v (the analysis of C78 with an absolute 2^-1075 per product and quotient, all intermediate results shown finite) | induction over columns and reflectors; the final-state equations of BackLoop.v |
| C94 | Nullspace.v, exact reals | ShortMinima.v (k independent vectors of a lattice bound the first k vectors of a reduced basis), NullExact.v, PotBound.v (potential <= M^(d(d+1)/2)) |
| C95 | NullFp.v (nullspace_fp_hjls over Restart.v) | C83 on the scaled matrix; the scaling is undone in exact arithmetic; negative part by execution |
| C96 | Fgas.v, HjlsBound.v | invariant of decomp() while ldim = 0: columns < d of R are those of F reflected by V; then the last non-zero product with a reflected column is an integer times r_ii |
| C97 | Fgas.v, RGram.v, HjlsTurn*.v, HjlsEnd*.v, HjlsHit.v | potential over the squared diagonal of R, cut at the value that the bit-size test guarantees; each turn multiplies it by 1/4 + 1/gamma^2 at most |
| C98 | HjlsFind.v | invariant of the turns: without a hit the last entry of Y is not 0, and the bit-size stop bounds the diagonal of R, hence (C96) every relation |
| C99 | Lcond.v | induction over the turns of the CHECK loop, in both directions |
| C100 | IsredPrec.v, Cache6.v | after setprec and householder() the object is `ready`: the simulation behind C05/C06 |
| C31, C34 | small models | direct |
| C38 | exact reals | from C04 |
| C42, C43, C44 | exact reals | same loop invariant; measure: product of Gram determinants (ExactPot.v, Det.v) |

Properties that turn out false of the code are stated and refuted with a
`_refuted` theorem and listed in section 4.

## 4. Findings (disagreements between property and code)

Each is a theorem (suffix `_refuted`, or a negative statement) unless marked *(remark)*.

* `hlll` with TRANSFORM and several threads, or dependent columns: `B = A*U` can
  fail (C03).
* `assign()` on a used object keeps the floating copy of the old basis; with the
  Seysen method and NO_LONG the next call can give another basis than a new
  object (C06).
* Seysen + NO_LONG converts the stale/uninitialised member `x`: the result depends
  on uninitialised memory (C25, C41).
* `isreduced()` ignores the return value of its inner run (C09); with one column
  it reads `R(0,1)` out of bounds (C10); with `n < d` every call of `hlll` goes out
  of bounds (C10).
* `__int128` conversions are not modular outside the domain (C11); printing
  `-2^127` overflows (C12); the `long` variant of `lift_truncate` overflows silently (C13).
* `pmatprod_in` with a block count not dividing the rows leaves rows unmultiplied (C17).
* `pmatprod_diag_even` is racy (C40); `nbswaps` in segment LLL is racy (C48).
* ranged `set(B,A,n,d1,d2)` does not copy the documented columns (C30).
* `matcmp` does not compare up to sign as documented (C32).
* `put()`/`shift()` keep stale structure / stale U (C31).
* the double-double conversion of integers is no more precise than one double for
  some inputs (C36).
* segment LLL: the padding columns can replace lattice vectors (C26, C27), `getU`
  is not the transformation (C49).
* `hlll<long>` loses entries beyond 64 bits (C27); `blevel` leaves the last columns
  unwritten when `bs` does not divide `d` (C29).
* `lcond`/`isreduced` do not restore the precision in some modes (C35); `lcond` reads the
  uninitialised lower part of the inverse (C50); its triangular bound is invalid
  when off-diagonal entries exceed the diagonal (C51); `ratio` divides by `d`, not
  `d-1` (C52).
* `MatrixRZ::set(i,j,ZT)` and `getZT(i,j)` address different rows (C37).
* `Fgas::set()` on a used object keeps the off-diagonal entries of U and V, and
  `ldim` (C56): from its second round on, `restarting_hjls` multiplies its V by a
  matrix that is not the transformation of that round *(the consequence is a remark)*.
* `FPTuple_f::relation` ignores its parameters `sizemethod` and `delta` (C59) and
  loops forever with `shift <= 0` (C58).
* ldpe_t: zeros read from an integer, scaled by `mul_2si`, or square-rooted are not
  normalised: they compare as negative and absorb small numbers (C61); products with
  zero compute an `int` below INT_MIN (C60, C64); round/floor/ceil/get_z pass through
  `double` (C62); `set_f` to `mpz_t` overruns its buffer by one byte exactly when the
  result is -1 (C63).
* `MatrixPE` (the class of the hplll program): products with an exact zero overflow `int`
  (exponent INT_MIN) on ordinary input (C65; harmless if the compiler wraps around);
  column operations on the first rows rescale the other rows (C66).
* `restarting_hjls` (C83): the final test is `nullity != 1` whatever `nbrel`, so with
  `nbrel = 2` the returned value is 2 with a column that is no relation and -1 with two
  relations; after a restart `set()` keeps old off-diagonal entries and the returned vector
  need not be primitive.
* the second report of the verification program uses another eta than it prints (C69);
  the hplll program exits with 0 on a basis that is not size reduced with parameter 1/2 (C70):
  the size test of `hlll` certifies only |mu| up to about 1 (C75, C77 state what it certifies).
* Seysen without LONG returns 0 on unreduced bases (C73); Seysen with several threads has an
  empty parallel branch: blocks above the threshold are not reduced (C74).
* `gen3r2s` takes the logarithm of a negative number when `3^s < 2^r` (C72).
* `hlll` over `long double` returns 0 with a basis of another lattice when entries exceed
  2^64, silently (C80); over `long`/`__int128_t` the same overflow is undefined behaviour.
* `mpztozz`/`zztompz` (C85, NTL builds only) lose the sign of their argument.
* The kernel functions read out of range on square matrices (C86), and `Fgas::decomp` on an object whose
  lattice part already has full dimension.
* `lift_z` (C84): the maximum over the columns in the gap test leaves out the last row, as in `detect_lift_f_z`.
* `SLattice::hlll` may be called with more segments than the constructor was given; `swapstab` has
  2*S_constructor - 1 entries and is then overrun (C87); nothing in the interface says so.
* *(C90)* `FPTuple::lll` picks the column of the reduced basis with the smallest |L.C| whatever its norm: for x = (49936092, 383058226, 333122134)/2^30 and alpha = 10 the first column of the reduced basis is the relation (1,-1,1), and (-14,-6,9), which is not a relation, is returned (the status is 0 in every case).
* *(C91)* `lehmer_lll(…, delta, lshift > 0, …)`: the argument delta is ignored, the inner
  reductions always use 0.99 (lehmer.cc 169).
* `nullspace_fp_hjls` (C95) always returns 0; the status of the search is only printed. For the row (12,7,0,0) it returns 0
  with C = (1,-2,0,0), which is not in the kernel.
* *(remarks)* `relations_hjls`: the off-diagonal entries of the identity block of the
  internal matrix are never set (NaN for mpfr_t; C98_uninitialised_refuted); epsilon is `2^(n+d+200-setprec)`,
  so for `setprec <= n+d+200` the final test accepts residues above 1; rounding halves away from zero would let `hsizereduce` alternate
  forever in exact arithmetic (C43 assumes half-even, what the code uses);
  `relation_lll` with `truncate < shift` truncates the identity part to zero;
  `ZFgas::decomp` with `d = n`, `ldim = 0` can read column `n`; `nullspace_lll` in
  Lehmer mode never returns -1 and an unknown `lllmethod` does nothing; slll
  ignores the -1 of its size reduction.

## 5. Assumptions per theorem

Output of `Print Assumptions`, grouped (generated by `tools/gen_assumptions.py`).
The `PrimFloat.*`/`PrimInt63.*` entries are Coq's primitive types and operations
(used through `vm_compute` in concrete witnesses with IEEE doubles); the others are
the standard library's axioms of the real numbers, classical logic and functional
extensionality.

* **closed under the global context** (no axiom) —
  C01_hlll_preserves_lattice, C02_transformation_exact, C03_getU_unimodular_any_threads, C03_transformation_staircase, C05_reuse_is_transparent, C05_reuse_matches_reference, C06_assign_is_fresh, C07_verbose_depth_balanced, C08_test_budget, C08_test_budget_any_state, C09_isreduced_meaning, C100_isreduced_anywhere, C100_isreduced_precision, C10_no_out_of_bounds, C10_no_out_of_bounds_hlll, C10_wide_never_completes, C11_modular_refuted, C11_out_of_range, C11_round_trip, C12_decimal_unambiguous, C12_most_negative_refuted, C12_print_int128, C13_lift_truncate, C13_lift_truncate_128, C13_lift_truncate_long, C13_long_silent_overflow_refuted, C14_parallel_products_exact, C14_transposed_parallel_product_exact, C15_parallel_equals_model, C15_parallel_size_update, C15_slices_partition, C16_blocks_tile, C16_put_get_identity, C16_reassemble, C17_pmatprod_in_any_blocks_refuted, C17_pmatprod_in_divisible, C17_pmatprod_in_first_rows, C17_pmatprod_in_sequential, C18_relation_candidate, C19_nullspace_lll, C20_decomp_consistent, C21_lehmer_lattice, C21_lehmer_lattice_full_rank, C21_lehmer_negative_shift_diverges, C21_lehmer_terminates, C21_lehmer_zero_shift, C22_l1_recursion_terminates, C22_l1_transformation, C23_matrix_structure, C24_seysen_blocks_cover, C25_long_flag_transparent_default, C26_slll_lattice, C26_slll_lattice_padding, C26_slll_padded_lattice, C27_gap_recursion, C27_hlll_int128, C27_hlll_long, C27_hlll_wrapper, C27_slll_sublattice, C27_slll_wrap_small, C27_slll_wrap_sublattice, C28_rotate, C29_blevel, C30_set_range_exact, C30_set_range_refuted, C31_put_then_reduce, C31_put_transformation, C31_shift_then_reduce, C32_empty_product_undefined, C32_matcmp_exact, C32_matcmp_up_to_sign_refuted, C32_products, C32_setId_isId, C32_transpose, C34_getU_getR_shape, C35_isreduced_restores, C35_lcond_leaves, C35_lcond_restores, C37_access, C37_bounds, C37_colswap, C37_column_operations, C39_matrix_cast, C40_more_blocks_than_columns_undefined, C40_pmaprod_diag_even_atomic_partial, C40_pmaprod_diag_even_race_refuted, C40_pmatprod_exact, C41_uninitialised_memory_not_read, C45_nullspace_direct, C46_nullspace_hjls, C47_fptuple_lll, C48_block_loop, C48_nbswaps_refuted, C48_pmatprod, C53_mixed_structure, C53_mixed_trunc, C53_mixed_trunc_defined, C54_decomposition, C54_return, C55_columns, C55_primitive, C56_set_unused, C57_primitive, C57_tested_value, C58_returns, C58_shift_zero_never_returns, C59_parameters_ignored, C65_same_lattice_any_matrix_class, C65_transform_any_matrix_class, C67_lock_step, C67_lock_step_histories, C67_plain_class, C69_same_verdict, C70_decimal_values, C70_exit_status, C70_long_type, C70_options, C70_same_lattice, C70_word_values, C71_alpha, C71_block_knapsack, C71_coppersmith, C71_knapsack, C71_no_arguments, C71_read, C71_shifted, C71_uniform, C71_unknown_type, C74_threads_and_transform, C75_hlll_certifies, C76_hlllp_certifies, C76_hlllp_is_hlll, C76_hlllp_preserves, C80_mpz_is_hlll, C80_word_right_or_undefined, C82_nullspace_indirect, C83_first_round, C84_primitive, C84_returns, C84_shift_zero_never_returns, C84_tested_value, C85_magnitude, C85_modular_round_trip, C86_fgas, C86_hjls, C86_nullspace, C86_zfgas, C87_slll_safe, C88_blevel, C88_fptuple_lll, C88_hlll_wrappers, C88_l1, C88_lehmer, C88_nullspace_lll, C88_relation_lll, C88_slll_wrap, C88_slll_wrapper, C89_fuel, C89_long, C91_delta_ignored, C95_first_round, C95_return, C99_check, C99_check_ends, C99_given, C99_unknown
* `ClassicalDedekindReals.sig_forall_dec`, `FunctionalExtensionality.functional_extensionality_dep` —
  C37_exact, C37_matprod, C37_set_get_refuted, C54_exact, C55_exact, C68_criterion, C73_first_vector_short, C78_error_size, C83_one_relation, C83_return, C90_lll_value, C90_relation_value, C90_row, C90_true_relation, C95_kernel, C95_printed
* `ClassicalDedekindReals.sig_forall_dec`, `ClassicalDedekindReals.sig_not_dec`, `FunctionalExtensionality.functional_extensionality_dep` —
  C04_exact_hlll_reduces, C38_first_vector_short, C42_exact_never_gives_up, C43_exact_terminates, C43_exact_terminates_length, C44_exact_swaps, C44_exact_swaps_length, C50_lcond_exact, C67_MatrixPE_reduces, C67_MatrixPE_terminates, C68_isreduced_decides, C68_isreduced_terminates, C69_first_report, C70_isreduced_program, C70_reduces, C73_never_gives_up, C73_seysen_reduces, C73_swaps, C73_terminates, C73_terminates_length, C74_exact_parallel_reduces, C74_exact_parallel_terminates, C77_hlll_bounds, C78_backward_stable, C78_nearly_reduced, C79_output_no_longer, C81_no_overflow, C89_defined, C89_ends, C89_first_vector_short, C89_reduced, C90_lll_bound, C90_lll_ends, C90_lll_ends_length, C91_first_vector_short, C91_lehmer_defined, C91_lehmer_ends, C91_lehmer_reduced, C94_ends, C94_ends_length, C94_kernel, C94_shift_bound, C96_R_factor, C96_lower_bound, C96_relation_bound, C97_decomp_ends, C97_decomp_returns, C97_relation_ends, C97_relation_returns, C98_complete, C98_found_or_none, C98_relations_hjls
* `ClassicalDedekindReals.sig_forall_dec`, `ClassicalDedekindReals.sig_not_dec`, `Classical_Prop.classic`, `FunctionalExtensionality.functional_extensionality_dep` —
  C33_trunc, C36_dd_error_adds, C36_dd_exact_iff, C36_dd_precise_refuted, C51_lcond_triangular, C51_lcond_triangular_refuted, C52_average_refuted, C52_ratio_exact, C60_add, C60_add_nearest_refuted, C60_defined, C60_div, C60_mul, C60_sqrt, C60_sub, C60_zero_product_refuted, C61_absorb_refuted, C61_cmp, C61_sgn, C61_zero_refuted, C62_beyond_refuted, C62_ceil, C62_floor, C62_frac_refuted, C62_round, C63_large, C63_long_double, C63_minus_one_refuted, C63_range_refuted, C63_small, C64_get_si_exp, C64_integers, C64_truncates_refuted, C64_zero_refuted, C65_MatrixPE_lattice, C65_MatrixPE_transform, C65_defined_on_independent_refuted, C66_addcol, C66_classes, C66_colswap, C66_div, C66_fmasub, C66_get, C66_get_non_normalized, C66_length_zero, C66_norm, C66_norm_sq, C66_other_rows_kept_refuted, C66_scalarprod, C66_set, C66_set_zero, C66_setcol_copy, C66_setcol_integers, C66_setcol_numbers, C66_subcol, C66_submulcol, C70_reduced_with_doubles_refuted, C72_negative_difference, C72_powers, C72_relation, C72_simultaneous_powers, C72_simultaneous_relation
* `PrimFloat.abs`, `PrimFloat.add`, `PrimFloat.div`, `PrimFloat.eqb`, `PrimFloat.float`, `PrimFloat.frshiftexp`, `PrimFloat.ldshiftexp`, `PrimFloat.leb`, `PrimFloat.ltb`, `PrimFloat.mul`, `PrimFloat.normfr_mantissa`, `PrimFloat.of_uint63`, `PrimFloat.opp`, `PrimFloat.sqrt`, `PrimFloat.sub`, `PrimInt63.eqb`, `PrimInt63.int`, `PrimInt63.land`, `PrimInt63.lor`, `PrimInt63.lsl`, `PrimInt63.lsr`, `PrimInt63.sub` —
  C03_transformation_dependent_refuted, C03_transformation_parallel_refuted, C06_assign_refuted, C09_isreduced_ignores_failure_refuted, C10_isreduced_one_column_refuted, C25_long_flag_seysen_refuted, C26_slll_lattice_refuted, C27_hlll_long_refuted, C27_slll_wrap_refuted, C29_blevel_refuted, C31_shift_keeps_U_refuted, C35_isreduced_prec_refuted, C35_lcond_prec_refuted, C41_seysen_no_long_refuted, C49_slll_getU_refuted, C50_lcond_uninitialised_refuted, C56_set_refuted, C74_seysen_threads_refuted, C80_long_double_refuted, C83_restart_refuted, C83_several_refuted, C86_again_refuted, C86_fgas_square_refuted, C86_square_refuted, C87_more_segments_refuted, C87_rotate_refuted, C88_wide_refuted, C95_return_refuted, C98_uninitialised_refuted
* `ClassicalDedekindReals.sig_forall_dec`, `FunctionalExtensionality.functional_extensionality_dep`, `PrimFloat.abs`, `PrimFloat.add`, `PrimFloat.div`, `PrimFloat.eqb`, `PrimFloat.float`, `PrimFloat.frshiftexp`, `PrimFloat.ldshiftexp`, `PrimFloat.leb`, `PrimFloat.ltb`, `PrimFloat.mul`, `PrimFloat.normfr_mantissa`, `PrimFloat.of_uint63`, `PrimFloat.opp`, `PrimFloat.sqrt`, `PrimFloat.sub`, `PrimInt63.eqb`, `PrimInt63.int`, `PrimInt63.land`, `PrimInt63.lor`, `PrimInt63.lsl`, `PrimInt63.lsr`, `PrimInt63.sub` —
  C69_second_report_refuted, C73_no_long_refuted, C90_lll_refuted
* `ClassicalDedekindReals.sig_forall_dec`, `ClassicalDedekindReals.sig_not_dec`, `Classical_Prop.classic`, `FunctionalExtensionality.functional_extensionality_dep`, `PrimFloat.abs`, `PrimFloat.add`, `PrimFloat.div`, `PrimFloat.eqb`, `PrimFloat.float`, `PrimFloat.frshiftexp`, `PrimFloat.ldshiftexp`, `PrimFloat.leb`, `PrimFloat.ltb`, `PrimFloat.mul`, `PrimFloat.normfr_mantissa`, `PrimFloat.of_uint63`, `PrimFloat.opp`, `PrimFloat.sqrt`, `PrimFloat.sub`, `PrimInt63.eqb`, `PrimInt63.int`, `PrimInt63.land`, `PrimInt63.lor`, `PrimInt63.lsl`, `PrimInt63.lsr`, `PrimInt63.sub` —
  C31_put_stale_structure_refuted
* `ClassicalDedekindReals.sig_forall_dec`, `ClassicalDedekindReals.sig_not_dec`, `Classical_Prop.classic`, `FloatAxioms.Prim2SF_SF2Prim`, `FloatAxioms.Prim2SF_valid`, `FloatAxioms.SF2Prim_Prim2SF`, `FloatAxioms.abs_spec`, `FloatAxioms.add_spec`, `FloatAxioms.div_spec`, `FloatAxioms.eqb_spec`, `FloatAxioms.leb_spec`, `FloatAxioms.ltb_spec`, `FloatAxioms.mul_spec`, `FloatAxioms.opp_spec`, `FloatAxioms.sqrt_spec`, `FloatAxioms.sub_spec`, `FunctionalExtensionality.functional_extensionality_dep`, `PrimFloat.abs`, `PrimFloat.add`, `PrimFloat.div`, `PrimFloat.eqb`, `PrimFloat.float`, `PrimFloat.frshiftexp`, `PrimFloat.ldshiftexp`, `PrimFloat.leb`, `PrimFloat.ltb`, `PrimFloat.mul`, `PrimFloat.normfr_mantissa`, `PrimFloat.of_uint63`, `PrimFloat.opp`, `PrimFloat.sqrt`, `PrimFloat.sub`, `PrimInt63.eqb`, `PrimInt63.int`, `PrimInt63.land`, `PrimInt63.lor`, `PrimInt63.lsl`, `PrimInt63.lsr`, `PrimInt63.sub` —
  C92_double_certifies, C93_double_backward_stable, C93_double_certificate

## 6. What is modelled and what is not

Modelled (each definition cites file and lines): `hlll.cc` (constructor, assign,
shift_assign, put, shift, hlll, hsizereduce, seysenreduce and their updates,
householder_r/v, householder, isreduced, lcond, hlllp, newseysenreduce, setprec, getters), `slll.cc`
(whole class but the timing code), `wrappers.h`, `slll-wrap.h`, `block.h`, `ratio.h`,
`lehmer.cc`, `l1.h`, `decompz.cc`, `decomp.cc`, `hjls.cc` (both functions), `nullspace.cc` (direct, indirect, hjls, lll variants, fgasgen),
`relations_z.cc`, `relations_f.cc` (inner reduction abstract), `matmixed.h`, the functions of `mat.h` named in the properties,
`nr_Z_l128.h` conversions and printing.

Simplifications common to all: timers, `cout`/`cerr` output and verbosity prints are
left out (only their control effects kept); machine `int` indices and counters are
unbounded; `mpz_t` is `Z` and memory allocation never fails; in Hlll.v the floating-point matrix
operations are entry-wise (`matrix<FP_NR<FT>>`); HlllM.v repeats hlll over any matrix class and
Matpe.v gives `MatrixPE` (all operations used by hlll.cc; not `normalize`, which nothing calls, the
printing functions, and setcol from long, __int128_t, double, mpfr or mixed columns).
`dpe_t` is fplll's; it is modelled by the text of ldpe.h with 53-bit mantissas.
fplll's `lllReduction` is an external function with its contract as hypothesis.

Not modelled: `hlllg.*`, `plll.*`, `oldslll.*`,
`lehmersstrunc.cc`, `hlll-save-avant-preduce.cc` (none of them reachable from the
installed header `hplll.h`), `givtimer.*`, and what section 3 does not mention.
