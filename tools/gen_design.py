import subprocess
s=open('/verif/DESIGN.md').read()
i=s.index('## 4. Findings')
head=s[:i]
find=r'''## 4. Findings (disagreements between property and code)

Each is a theorem (suffix `_refuted`, or a negative statement) unless marked *(remark)*.

* `hlll` with TRANSFORM and several threads, or dependent columns: `B = A*U` can
  fail (C03).
* `assign()` on a used object keeps the floating copy of the old basis; with the
  Seysen method and NO_LONG the next call can give another basis than a new
  object (C06).
* Seysen + NO_LONG converts the stale/uninitialised member `x`: the result depends
  on uninitialised memory (C25, C41).
* `isreduced()` ignores the return value of its inner run (C09); with one column
  it reads `R(0,1)` out of bounds (C10); with `n < d` every call of `hlll` goes out
  of bounds (C10).
* `__int128` conversions are not modular outside the domain (C11); printing
  `-2^127` overflows (C12); the `long` variant of `lift_truncate` overflows silently (C13).
* `pmatprod_in` with a block count not dividing the rows leaves rows unmultiplied (C17).
* `pmatprod_diag_even` is racy (C40); `nbswaps` in segment LLL is racy (C48).
* ranged `set(B,A,n,d1,d2)` does not copy the documented columns (C30).
* `matcmp` does not compare up to sign as documented (C32).
* `put()`/`shift()` keep stale structure / stale U (C31).
* the double-double conversion of integers is no more precise than one double for
  some inputs (C36).
* segment LLL: the padding columns can replace lattice vectors (C26, C27), `getU`
  is not the transformation (C49).
* `hlll<long>` loses entries beyond 64 bits (C27); `blevel` leaves the last columns
  unwritten when `bs` does not divide `d` (C29).
* `lcond`/`isreduced` do not restore the precision in some modes (C35); `lcond` reads the
  uninitialised lower part of the inverse (C50); its triangular bound is invalid
  when off-diagonal entries exceed the diagonal (C51); `ratio` divides by `d`, not
  `d-1` (C52).
* `MatrixRZ::set(i,j,ZT)` and `getZT(i,j)` address different rows (C37).
* `Fgas::set()` on a used object keeps the off-diagonal entries of U and V, and
  `ldim` (C56): from its second round on, `restarting_hjls` multiplies its V by a
  matrix that is not the transformation of that round *(the consequence is a remark)*.
* `FPTuple_f::relation` ignores its parameters `sizemethod` and `delta` (C59) and
  loops forever with `shift <= 0` (C58).
* ldpe_t: zeros read from an integer, scaled by `mul_2si`, or square-rooted are not
  normalised: they compare as negative and absorb small numbers (C61); products with
  zero compute an `int` below INT_MIN (C60, C64); round/floor/ceil/get_z pass through
  `double` (C62); `set_f` to `mpz_t` overruns its buffer by one byte exactly when the
  result is -1 (C63).
* `MatrixPE` (the class of the hplll program): products with an exact zero overflow `int`
  (exponent INT_MIN) on ordinary input (C65; harmless if the compiler wraps around);
  column operations on the first rows rescale the other rows (C66).
* `restarting_hjls` (C83): the final test is `nullity != 1` whatever `nbrel`, so with
  `nbrel = 2` the returned value is 2 with a column that is no relation and -1 with two
  relations; after a restart `set()` keeps old off-diagonal entries and the returned vector
  need not be primitive.
* the second report of the verification program uses another eta than it prints (C69);
  the hplll program exits with 0 on a basis that is not size reduced with parameter 1/2 (C70):
  the size test of `hlll` certifies only |mu| up to about 1 (C75, C77 state what it certifies).
* Seysen without LONG returns 0 on unreduced bases (C73); Seysen with several threads has an
  empty parallel branch: blocks above the threshold are not reduced (C74).
* `gen3r2s` takes the logarithm of a negative number when `3^s < 2^r` (C72).
* `hlll` over `long double` returns 0 with a basis of another lattice when entries exceed
  2^64, silently (C80); over `long`/`__int128_t` the same overflow is undefined behaviour.
* `mpztozz`/`zztompz` (C85, NTL builds only) lose the sign of their argument.
* The kernel functions read out of range on square matrices (C86), and `Fgas::decomp` on an object whose
  lattice part already has full dimension.
* `lift_z` (C84): the maximum over the columns in the gap test leaves out the last row, as in `detect_lift_f_z`.
* `SLattice::hlll` may be called with more segments than the constructor was given; `swapstab` has
  2*S_constructor - 1 entries and is then overrun (C87); nothing in the interface says so.
* *(C90)* `FPTuple::lll` picks the column of the reduced basis with the smallest |L.C| whatever its norm: for x = (49936092, 383058226, 333122134)/2^30 and alpha = 10 the first column of the reduced basis is the relation (1,-1,1), and (-14,-6,9), which is not a relation, is returned (the status is 0 in every case).
* *(C91)* `lehmer_lll(…, delta, lshift > 0, …)`: the argument delta is ignored, the inner
  reductions always use 0.99 (lehmer.cc 169).
* `nullspace_fp_hjls` (C95) always returns 0; the status of the search is only printed. For the row (12,7,0,0) it returns 0
  with C = (1,-2,0,0), which is not in the kernel.
* *(remarks)* `relations_hjls`: the off-diagonal entries of the identity block of the
  internal matrix are never set (NaN for mpfr_t); epsilon is `2^(n+d+200-setprec)`,
  so for `setprec <= n+d+200` the final test accepts residues above 1; rounding halves away from zero would let `hsizereduce` alternate
  forever in exact arithmetic (C43 assumes half-even, what the code uses);
  `relation_lll` with `truncate < shift` truncates the identity part to zero;
  `ZFgas::decomp` with `d = n`, `ldim = 0` can read column `n`; `nullspace_lll` in
  Lehmer mode never returns -1 and an unknown `lllmethod` does nothing; slll
  ignores the -1 of its size reduction.

'''
tab=subprocess.run(['python3','/verif/tools/gen_assumptions.py'],capture_output=True,text=True).stdout
ass=r'''## 5. Assumptions per theorem

Output of `Print Assumptions`, grouped (generated by `tools/gen_assumptions.py`).
The `PrimFloat.*`/`PrimInt63.*` entries are Coq's primitive types and operations
(used through `vm_compute` in concrete witnesses with IEEE doubles); the others are
the standard library's axioms of the real numbers, classical logic and functional
extensionality.

'''+tab+r'''
## 6. What is modelled and what is not

Modelled (each definition cites file and lines): `hlll.cc` (constructor, assign,
shift_assign, put, shift, hlll, hsizereduce, seysenreduce and their updates,
householder_r/v, householder, isreduced, lcond, hlllp, newseysenreduce, setprec, getters), `slll.cc`
(whole class but the timing code), `wrappers.h`, `slll-wrap.h`, `block.h`, `ratio.h`,
`lehmer.cc`, `l1.h`, `decompz.cc`, `decomp.cc`, `hjls.cc` (both functions), `nullspace.cc` (direct, indirect, hjls, lll variants, fgasgen),
`relations_z.cc`, `relations_f.cc` (inner reduction abstract), `matmixed.h`, the functions of `mat.h` named in the properties,
`nr_Z_l128.h` conversions and printing.

Simplifications common to all: timers, `cout`/`cerr` output and verbosity prints are
left out (only their control effects kept); machine `int` indices and counters are
unbounded; `mpz_t` is `Z` and memory allocation never fails; in Hlll.v the floating-point matrix
operations are entry-wise (`matrix<FP_NR<FT>>`); HlllM.v repeats hlll over any matrix class and
Matpe.v gives `MatrixPE` (all operations used by hlll.cc; not `normalize`, which nothing calls, the
printing functions, and setcol from long, __int128_t, double, mpfr or mixed columns).
`dpe_t` is fplll's; it is modelled by the text of ldpe.h with 53-bit mantissas.
fplll's `lllReduction` is an external function with its contract as hypothesis.

Not modelled: `hlllg.*`, `plll.*`, `oldslll.*`,
`lehmersstrunc.cc`, `hlll-save-avant-preduce.cc` (none of them reachable from the
installed header `hplll.h`), `givtimer.*`, and what section 3 does not mention.
'''
open('/verif/DESIGN.md','w').write(head+find+ass)
