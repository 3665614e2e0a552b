#!/usr/bin/env python3
# Generates properties.jsonl (kept as a script so that wording edits stay reviewable).
import json, os
P=[]
def p(id,title,statement,quantifier,why,anchors):
    P.append(dict(id=id,title=title,statement=statement,quantifier=quantifier,why_tests_cant=why,anchors=anchors))

p("C01","hlll never leaves the lattice",
 "Whenever Lattice::hlll returns (0, -1 by size-reduction failure, -1 by the norm anomaly, or early because the test budget is used up), the columns of getbase() generate exactly the same integer lattice as the columns of the matrix given to the constructor, whatever values the floating-point type computed on the way and whatever uninitialised memory contained.",
 "every integer matrix A (any n,d; dependent columns included), every delta, every behaviour of the floating-point type whose integer conversion returns a non-negative exponent, every exit, both reduction methods (default and Seysen), LONG/NO_LONG, every thread count",
 "a test sees one matrix and one rounding history; the claim is for every matrix and every sequence of rounding errors, NaNs included",
 ["src/hlll.cc: hlll, hsizereduce, seysenreduce, size_update, seysen_update, psize_update_B","src/mat.h: matrix::subcol/addcol/submulcol/addmulcol_si/addmulcol_si_2exp/colswap, matrix_structure"])
p("C02","getU() is the unimodular transformation",
 "For a Lattice built with TRANSFORM on linearly independent columns, with the default single thread, after hlll returns: getbase() = A * getU() and getU() is unimodular (has an integer inverse).",
 "every integer matrix with independent columns, every floating-point behaviour, every exit of hlll, both reduction methods",
 "the equality must survive every possible history of reductions and swaps",
 ["src/hlll.cc: hlll, size_update, seysen_update, getU, getbase, Lattice::Lattice"])
p("C03","TRANSFORM beyond one thread and independent columns",
 "If for every j one of the columns 0..j of A has a non-zero entry in a row >= j (true for independent columns, and for many dependent ones), then getU() is unimodular after any history and for any thread count, and getbase() = A * getU() when a single thread was used. Outside these conditions the equality fails: there are inputs where it is false with two threads (the parallel size reduction does not update U), and inputs with dependent columns and a single thread where it is false.",
 "every thread count S, every threshold, every A",
 "only shows beyond the parallel threshold or on dependent inputs",
 ["src/hlll.cc: hsizereduce, psize_update_B, set_num_S, size_update"])
p("C04","hlll = 0 means LLL-reduced (exact arithmetic)",
 "With exact real arithmetic and rounding to nearest (default reduction method, one thread), if hlll(delta) returns 0 before the test budget is reached then getbase() is (delta,1/2)-LLL reduced: its R factor satisfies |r_ij| <= |r_ii|/2 and delta r_{i-1,i-1}^2 <= r_{i-1,i}^2 + r_{ii}^2 for all i<j.",
 "every integer matrix with independent columns (n >= d), every delta, every number of iterations",
 "reducedness is a universally quantified conclusion about every output; tests check a handful of bases",
 ["src/hlll.cc: hlll, hsizereduce, size_update, householder_r, householder_v"])
p("C05","Reusing orthogonalisation data is transparent",
 "hlll computes the same basis, transformation, counters and return value (and the same R factor when it runs to its end) as the version that recomputes every column from scratch at each visit (no column kept), for a freshly constructed Lattice.",
 "every A with linearly independent columns (or just a staircase of nonzeros), every method, thread count and test budget, every number of iterations, every deterministic arithmetic for which adding 0*y changes nothing (and every arithmetic at all when the first column reaches the last nonzero row)",
 "every history of swaps and reductions drives the marks differently",
 ["src/hlll.cc: householder_r, householder_v, hlll, hsizereduce, seysenreduce"])
p("C06","assign() is equivalent to a fresh construction",
 "After assign(A) on an already used Lattice of the same dimensions, hlll returns the same value, basis, transformation, R and number of tests as on a newly constructed Lattice(A) with the same settings, provided the first column of A reaches the last nonzero row; the swap counter continues from its old value. Without the proviso the claim is false: hlll can return 0 with a basis that is not reduced.",
 "every previous history of calls on the object, every A with independent columns, every floating-point behaviour",
 "every history leaves different stale data",
 ["src/hlll.cc: assign, householder_r, hlll"])
p("C07","The verbosity depth is balanced",
 "hlll leaves the global verboseDepth as it found it on every exit, with verbose true or false.",
 "every input, every exit path",
 "each of the three exit paths must be taken at every recursion depth",
 ["src/hlll.cc: hlll","src/defs.h: verboseDepth"])
p("C08","The test budget bounds the main loop",
 "hlll performs at most nblov_max Lovasz tests in total (nblov never exceeds max(nblov_max, its value on entry)), the number of swaps never exceeds the number of tests, and on completion tests = 2*swaps_above_first + swaps_at_first + (d-1).",
 "every A, every floating-point behaviour",
 "counting invariant over unbounded executions",
 ["src/hlll.cc: hlll, set_nblov_max"])
p("C09","What isreduced() = 0 means",
 "When the internal hlll run of isreduced(delta) returns 0, the answer is 0 if and only if that run made no swap and did not exhaust its test budget (the input passed every Lovasz test); the return value of the internal run is ignored, so that the answer can also be 0 after a run that swapped and failed.",
 "every A, every floating-point behaviour",
 "the abnormal exits of the inner hlll must be considered for all numerical behaviours",
 ["src/hlll.cc: isreduced, hlll","src/isreduced.cc: main"])
p("C10","No out-of-bounds access in hlll",
 "Construction followed by hlll never indexes outside its matrices and vectors when n >= d >= 1 and no leading column is zero-structured below its index; and when n < d a completing run necessarily does.",
 "every A with n >= d, every floating-point behaviour, every history",
 "memory safety must hold for every sequence of index moves",
 ["src/hlll.cc: householder_r, householder_v, hlll","src/mat.h: matrix::get/getcol"])
p("C11","mpz <-> __int128 conversions round-trip",
 "mpz_get_128int(mpz_set_128int(z)) = z for every z in [-2^127, 2^127), and mpz_set_128int(mpz_get_128int(a)) = a for every 128-bit a; outside the range the result always fits the type but is never z, and is in general not z modulo 2^128 (the high word goes through mpz_get_si: low 63 bits of the absolute value, sign kept).",
 "all 2^128 values and every integer z",
 "2^128 cases, sign and carry boundaries",
 ["src/nr_Z_l128.h: mpz_set_128int, mpz_get_128int"])
p("C12","Decimal printing of __int128",
 "operator<< on a 128-bit integer prints its exact decimal representation (minus sign for negatives, no leading zeros, 0 for zero) for every value except the most negative one -2^127, for which the behaviour is undefined (signed overflow).",
 "all 2^128 values",
 "2^128 cases including the most negative value",
 ["src/nr_Z_l128.h: operator<<"])
p("C13","lift_truncate is the documented scaling",
 "lift_truncate(C,A,def,bits) multiplies row 0 by 2^def (floor for def<0) and copies the other rows when bits=0; when truncation applies every entry is divided by the same power of two (floor) and every column keeps an entry of at least bits+2 bits; when it does not apply nothing else changes. The __int128 variant with bits > 0 either gives exactly these values or stops the program; the long variant gives exactly these values when it truncates without printing its warning, but overflows silently when it does not truncate.",
 "every A, def, bits",
 "boundary conditions on bit lengths for arbitrary sizes",
 ["src/mat.h: lift_truncate"])
p("C14","Parallel integer products are exact for every schedule",
 "pmatprod_in_int(C,U,S) leaves C*U in C for every S >= 1 and every interleaving of the S threads; so does the transposed variant tpmatprod_in_int.",
 "every C, U, every S (also S > rows), every interleaving of the threads' memory accesses",
 "data races show only under particular schedules",
 ["src/mat.h: pmatprod_in_int, tpmatprod_in_int, matprod_in_int"])
p("C15","The parallel size reduction of B equals the sequential one",
 "psize_update_B with S threads produces, for every schedule, the same basis as the sequential update with the same coefficients; the row slices given to the threads partition the rows.",
 "every S >= 1, every schedule, every coefficient vector",
 "schedule-dependent",
 ["src/hlll.cc: psize_update_B, size_update","src/mat.h: psubcol, paddcol, psubmulcol, paddmulcol_si, paddmulcol_si_2exp"])
p("C16","getblock / putblock",
 "For any block counts not larger than the dimensions the blocks (i,j) returned by getblock tile the matrix exactly (every entry in exactly one block), and putblock(getblock) is the identity.",
 "every matrix size, every numbers of row and column blocks (dividing or not)",
 "uneven partitions have boundary cases for every remainder",
 ["src/mat.h: getblock, putblock"])
p("C17","What pmatprod_in computes for every block count",
 "pmatprod_in(C,U,S) multiplies by U exactly the first S*floor(m/S) rows of C, in every schedule, and leaves the others unchanged: it computes C*U when S divides the number m of rows, and for every other S some C, U give a wrong product.",
 "every m, every S",
 "shows only when S does not divide the row count",
 ["src/mat.h: pmatprod_in"])
p("C18","relation_lll only returns consistent candidates",
 "relation_lll returns 0 without writing C, or 1 with a d x 1 vector C. If it returns 1 - without truncation, or when every truncated matrix handed to the inner reduction keeps, for each j, a nonzero entry in a row >= j among its columns 0..j, or with fplll under its contract - C is a nonzero primitive integer vector, a column of a unimodular matrix, and its combination of the input row is the smallest in absolute value over the columns of that matrix.",
 "every input row, every alpha, shift, truncate, confidence gap, every floating-point behaviour",
 "depends on the whole history of lifts",
 ["src/relations_z.cc: relation_lll","src/mat.h: lift_truncate, matprod_in_int"])
p("C19","nullspace_lll returns kernel vectors",
 "nullspace_lll returns -1 (only with lsigma = 0, C untouched) or a number r >= n-d of columns C with A*C = 0 that are linearly independent and extend to a basis of Z^n. When the rows of A are independent, r = n-d and C generates every integer kernel vector.",
 "every A, every floating-point behaviour of the inner reductions",
 "for all inputs and histories",
 ["src/nullspace.cc: nullspace_lll"])
p("C20","ZFgas keeps F, U and W consistent",
 "Along decomp of ZFgas: with TRANSFORM the current F equals the initial F times U with U unimodular; with INV_T_TRANSFORM W is the inverse transpose of the transformation.",
 "every initial matrix, every sequence of the internal swaps and reductions",
 "history-dependent",
 ["src/decompz.cc: ZFgas::decomp, hsizereduce"])
p("C21","lehmer_lll returns a basis of the same lattice",
 "lehmer_lll(C,A,delta,lshift,truncate) with lshift >= 1 makes exactly ceil(bits/lshift) lifting steps (bits = the largest bit size of A); with lshift = 0 it leaves in C a basis of the lattice of A; with lshift >= 1 it does so provided the truncated matrices it reduces keep full column rank (or only a staircase shape), which is guaranteed without truncation when the rows of A below the first have full column rank, e.g. A = [a; Id]; with lshift < 0 it never returns.",
 "every A, every lshift >= 0, every floating-point behaviour, every S",
 "for all inputs and shift values",
 ["src/lehmer.cc: lehmer_lll"])
p("C22","The recursive L1 reduction returns a transformation",
 "The recursive L1 driver (method HLLL) on linearly independent columns ends its recursion within log2(bits)+1 levels and returns B = A*U with U unimodular.",
 "every A, every recursion depth",
 "recursion on bit size",
 ["src/l1.h: l1, rec"])
p("C23","matrix_structure",
 "matrix_structure returns, for each column, the largest row index of a nonzero entry over this column and all the columns before it (-1 if none): the result is non-decreasing, bounds all nonzero entries, and is the least such vector.",
 "every matrix",
 "universally quantified specification",
 ["src/mat.h: matrix_structure"])
p("C24","The Seysen block loop covers the column exactly once",
 "The binary-digit block loop of the Seysen reduction visits every row index 0..kappa-1 exactly once, from kappa-1 downwards.",
 "every kappa",
 "unbounded kappa",
 ["src/hlll.cc: seysenreduce"])
p("C25","The LONG / NO_LONG flag does not change the result",
 "With the default reduction hlll gives the same basis, transformation, counters and return value with LONG and NO_LONG when the two integer conversions of the floating-point type agree. With the Seysen reduction it does not: NO_LONG subtracts from the basis a stale coefficient instead of the one subtracted from R.",
 "every state, every coefficient",
 "depends on leftovers from previous computations",
 ["src/hlll.cc: size_update, seysen_update"])
p("C26","slll preserves the padded lattice",
 "SLattice::hlll applies only unimodular transformations to the padded basis; every column of getbase() is in the lattice of A, and getbase() generates it when 2S divides d (or when the first d columns keep zeros in the padding rows).",
 "every A, every S, every floating-point behaviour, every schedule",
 "histories of even/odd block reductions",
 ["src/slll.cc: SLattice::hlll, SLattice::SLattice","src/mat.h: pmaprod_diag_even, pmatprod"])
p("C27","The staged wrappers preserve the lattice",
 "The hlll wrappers (reduce the first columns, append the next ones, reduce again) return a basis of the lattice of the input, in the long and __int128 versions provided the entries fit. slll_wrap and slll return vectors of the input lattice, a basis of it up to the threshold dimension; beyond the threshold the lattice can be lost; its recursion on gaps is bounded.",
 "every A, every stage sizes, every floating-point behaviour",
 "for all inputs",
 ["src/slll-wrap.h: slll_wrap","src/wrappers.h: hlll, slll"])
p("C28","rotate is a permutation of the columns",
 "The column rotation used by slll is a cyclic permutation (in particular it preserves the lattice).",
 "every matrix and number of columns",
 "for all sizes",
 ["src/slll.cc: rotate"])
p("C29","What the block-level driver writes",
 "blevel(B, A, bs, dec) writes exactly the first (d/bs)*bs columns of B: block q generates the lattice of block q of A and is a copy of it for q < dec; the remaining columns are not written. When bs divides d, B generates the lattice of A.",
 "every dimension d and block size",
 "shows only when the block size does not divide d",
 ["src/block.h: blevel"])
p("C30","What the ranged copy set(B,A,n,d1,d2) copies",
 "The ranged matrix copy copies exactly the columns d1+1..d2-1 (0-based) and changes nothing else; contrary to its documentation column d1 is never copied.",
 "every n, d1 < d2",
 "boundary",
 ["src/mat.h: set(B,A,n,d1,d2)"])
p("C31","put() and shift() on a used object",
 "After put(A,...) at any point of any history, getU() is the identity; if the written matrix fits below the nonzero profile of the matrix last assigned (these members do not recompute the structure), the following calls preserve the lattice of the written matrix, and (single thread) getbase() = written * getU(). The same lattice statement holds for shift. Without the profile condition the lattice can be lost, and shift does not reset the off-diagonal entries of U.",
 "every history, every A",
 "history-dependent",
 ["src/hlll.cc: shift, put"])
p("C32","Elementary matrix helpers",
 "setId/isId/transpose/matprod/matcmp compute exactly: identity, identity test, transposition (an involution), product; setId on a matrix with more rows than columns and in-place products of matrices without columns are out of bounds; matcmp answers true exactly when each row of B1 equals the row of B2 or, if its first entry is nonzero, its opposite (so opposite rows starting with 0 are reported different).",
 "every matrix",
 "universally quantified",
 ["src/mat.h: setId, isId, transpose, matprod, matprod_in, matcmp"])
p("C33","trunc",
 "trunc(B,A,...) divides the upper part by 10^k (towards zero), keeps the lower part (t=0 or t>=max bit size), replaces it by the identity (t<0), or divides everything by one power of ten (0<t<max bit size).",
 "every A and t, tau",
 "case analysis over all sizes",
 ["src/mat.h: trunc"])
p("C34","getU / getR contracts",
 "getU returns a d x d matrix if the transformation was requested and an empty matrix otherwise; getR is d x d upper triangular.",
 "every state",
 "for all histories",
 ["src/hlll.cc: getU, getR"])
p("C35","The precision is restored",
 "With an mpfr_t object, lcond(t, DEFAULT_PREC), lcond(t, prec>=2, CHECK) and isreduced leave the MPFR default precision as they found it. The other modes of lcond (a given precision without CHECK, UNKNOWN_PREC) do not, and neither does isreduced when the type of the object has a constant precision (double).",
 "every flag combination, every default precision, every object",
 "path coverage over all flag values and all histories of the default precision",
 ["src/hlll.cc: lcond, isreduced, setprec, getprec"])
p("C36","Conversion of integers to double-double",
 "FP_NR<dd_real>::set_z, from a 128-bit integer, is exact precisely when the integer is a double; otherwise (the low part has the wrong sign) its error is the rounding error to double plus the low part, i.e. strictly worse than a plain double and at most (2+2^-53) times its error.",
 "all 128-bit integers",
 "2^128 cases",
 ["src/nr_Z_l128.h: set_z"])
p("C37","Mixed real/integer matrix operations",
 "Column operations, swaps and products on a MatrixRZ act as the same operation on the stacked matrix [real part; integer part], for every number of rows l (also across the boundary). setZT/getZT agree; set(i,j,integer) addresses row i of the stacked matrix, so get(i,j) does not read it back when there is a real part.",
 "every matrix, every length",
 "row ranges straddling the boundary",
 ["src/matmixed.h: MatrixRZ"])
p("C38","LLL-reduced bases have short first vectors",
 "If hlll(delta), exact arithmetic, returns 0 within the budget with 1/4 < delta <= 1, then the first column satisfies ||b1||^2 <= (1/(delta-1/4))^(d-1) ||v||^2 for every nonzero lattice vector v.",
 "every input lattice, every nonzero lattice vector",
 "quantifies over the infinite lattice",
 ["src/hlll.cc: hlll"])
p("C39","matrix_cast to machine integers",
 "matrix_cast to long/__int128 is the identity on values when every entry fits; its error message is printed exactly when some absolute value is >= 2^63 (resp. 2^127); in all cases an entry is stored exactly if and only if it fits the type.",
 "every matrix",
 "range boundaries",
 ["src/mat.h: matrix_cast"])
p("C40","Block products of the segment LLL",
 "pmatprod computes C*U for every block count S <= columns and every thread count, under any schedule, without data race (for S > columns it reads out of bounds). pmaprod_diag_even with at least two iterations always has a data race; if memory accesses are nevertheless atomic it computes C*U for block-diagonal U under any schedule.",
 "every size, S, t multiple of S, every schedule",
 "uneven partitions and schedules",
 ["src/mat.h: pmaprod_diag_even, pmatprod"])
p("C41","Uninitialised memory is never read",
 "The outcome of hlll on a new Lattice does not depend on the contents of the memory that the constructor leaves uninitialised; with Seysen reduction and without the long option it does depend on it.",
 "every content of the uninitialised memory, every A with independent columns, every arithmetic (zero neutral, or first column reaching the last nonzero row)",
 "a test sees one memory content",
 ["src/hlll.cc: init, householder_r, seysenreduce, hlll"])

p("C42","hlll does not give up in exact arithmetic",
 "With exact real arithmetic, independent columns and delta <= 1, hlll never returns -1 (the 'diagonal increased after a swap' and 'no progress' exits are unreachable) and never accesses its matrices out of bounds.",
 "every integer matrix with independent columns, every delta <= 1, every number of iterations, default reduction, one thread",
 "for all inputs and iteration counts",
 ["src/hlll.cc: hlll, hsizereduce"])
p("C43","hlll terminates",
 "With exact real arithmetic where halves round to zero, independent columns and delta <= 1, hlll ends with 0 after at most 2P+d+1 steps of its main loop, P being the product of the Gram determinants of the first k columns, k=1..d; the result is LLL-reduced if the test budget is larger. In particular the inner size-reduction loop always ends after at most two rounds.",
 "every integer matrix with independent columns, every delta <= 1",
 "termination on all inputs",
 ["src/hlll.cc: hlll, hsizereduce"])
p("C44","The number of swaps is logarithmic",
 "With exact real arithmetic the number of swaps counted by a call of hlll(delta), 0 < delta, is at most log(P/P')/log(1/delta), i.e. (1/delta)^swaps * P' <= P, where P and P' >= 1 are the products of the Gram determinants of the input and of the returned basis.",
 "every integer matrix with independent columns, every delta > 0, every test budget",
 "a bound over all inputs",
 ["src/hlll.cc: hlll"])
p("C45","nullspace_direct_decomp returns a basis of the kernel",
 "nullspace_direct_decomp returns -1, or n-d columns C with A*C = 0 that extend to a basis of Z^n; when the rows of A are independent they generate every integer kernel vector.",
 "every A, every floating-point behaviour of the decomposition, every outcome",
 "for all inputs and histories",
 ["src/nullspace.cc: nullspace_direct_decomp","src/decompz.cc: ZFgas::decomp"])
p("C46","nullspace_hjls returns kernel vectors",
 "nullspace_hjls returns -1, or n-d with an n x (n-d) matrix C such that A*C = 0 and whose columns extend to a basis of Z^n; when the rows of A are independent they generate every integer kernel vector.",
 "every A, every floating-point behaviour of the decomposition",
 "for all inputs and histories",
 ["src/nullspace.cc: nullspace_hjls","src/decompz.cc: ZFgas::decomp"])
p("C47","FPTuple::lll returns a primitive candidate",
 "FPTuple::lll returns 0 and a primitive d x 1 integer vector, a column of a unimodular matrix, whose combination of the scaled integer row is the smallest in absolute value over the columns of that matrix.",
 "every integer row, every floating-point behaviour of the reduction",
 "for all inputs and histories",
 ["src/relations_z.cc: FPTuple::lll"])
p("C48","The parallel phases of segment LLL are deterministic",
 "In SLattice::hlll the loop over the blocks and the product by the blocks leave, under every schedule of their iterations, the transformation, per-block swap flags, number of tests and basis of the sequential execution; the counter nbswaps is updated without synchronisation and some schedule loses updates.",
 "every schedule, every number of segments, every content",
 "schedules",
 ["src/slll.cc: hlll, pmatprod"])
p("C49","getU of segment LLL",
 "Contrary to Lattice::getU, SLattice::getU after hlll is not the transformation from the input to getbase(): there is an input (2S divides d, transformation requested) with getbase() different from A*getU().",
 "claim about all inputs, refuted by an execution with doubles",
 "the positive claim quantifies over all inputs",
 ["src/slll.cc: hlll, getU"])

p("C50","lcond computes the exponent of the condition number",
 "In exact arithmetic, after any sequence of calls leaving an independent basis with 2<=d<=n, lcond(ANY, DEFAULT_PREC) does not change getbase() and returns v with || |R| |R^-1| ||_F < 2^v for every R factor R of the basis; moreover 2^(v-1) <= || |R| |R^-1| ||_F when the memory of the local matrix iR happens to be zero. In general the value depends on that uninitialised memory.",
 "all bases, histories, contents of the uninitialised memory",
 "uninitialised memory is usually zero in tests",
 ["src/hlll.cc: lcond, householder", "src/mat.h: resize"])
p("C51","lcond on proper triangular matrices",
 "In exact arithmetic, lcond(TRIANGULAR_PROPER, DEFAULT_PREC) on an upper triangular basis with nonzero diagonal and |B(i,j)| <= |B(i,i)| returns v with || |R| |R^-1| ||_F < 2^v. The bound is false for triangular matrices whose entries exceed the diagonal (dimension 10, unit diagonal, -3 above it: v = 18).",
 "all triangular bases, histories",
 "bound over all dimensions",
 ["src/hlll.cc: lcond"])
p("C52","ratio",
 "In exact arithmetic, for d independent columns (1<=d<=n), ratio stays in bounds and returns lfcond = log2 || |R| |R^-1| ||_F, max_ratio = max |R(i,i)/R(i+1,i+1)|, av_ratio = the sum of these d-1 ratios divided by d (not by d-1), and c = (||b_1|| / vol^(1/d))^(1/d).",
 "all bases",
 "identity over all inputs",
 ["src/ratio.h: ratio"])
p("C53","Truncation and structure of mixed matrices",
 "mixed_trunc divides the real part by 10^(e10 tau) and, for t > 0, both parts by one common power of ten (integers truncated); t = 0 keeps the integers, t < 0 replaces them by the identity. matrix_structure of a mixed matrix is, column by column, the last non zero row of the stacked matrix over the columns so far.",
 "every mixed matrix, t, tau, and arithmetic of the real part",
 "for all inputs and boundaries between the two parts",
 ["src/matmixed.h: mixed_trunc, matrix_structure, maxbitsizeRT, maxbitsizeZT"])

p("C54","FGAS decomposition of a real generating set",
 "After any sequence of hsizereduce, householder and decomp calls on a new Fgas, whatever the arithmetics of RT and FT, getV() is unimodular and, with the transformation, getU()^T getV() = I; decomp returns 0 only with ldim >= targetdim, and -1 otherwise. If RT is exact, Finput = getfgas() getV()^T and getfgas() = Finput getU().",
 "all inputs, dimensions, arithmetics (FT always arbitrary), call sequences",
 "holds for every rounding behaviour and number of iterations",
 ["src/decomp.cc: decomp, hsizereduce, householder, getU, getV, getfgas, init", "src/decomp.h: Fgas"])
p("C55","relations_hjls returns primitive relations",
 "When relations_hjls(C,A,nbrel,prec) does not return -1 it returns nbrel <= n, C is n x nbrel, and its columns are nbrel columns of a unimodular matrix: they are independent and any integer vector a nonzero multiple of which they generate is generated by them. If RT is exact, |A C| <= epsilon entrywise. This for every content of the entries of the internal matrix that the code leaves unset.",
 "all inputs A, nbrel, arithmetics, uninitialised entries",
 "primitivity is a statement about all integer vectors",
 ["src/hjls.cc: relations_hjls", "src/decomp.cc: decomp, getV"])
p("C56","Fgas::set on a used object",
 "set(F,res) on an object not used yet is equivalent to constructing it on (F,res). On a used object it is not: the off-diagonal entries of U and V (and ldim, nblov) survive, so getU() and getV() are not the identity after set() - the situation of restarting_hjls from its second round on.",
 "all objects and histories; the negative part by an execution with doubles",
 "depends on the history of the object",
 ["src/decomp.cc: set, init", "src/mat.h: resize", "src/hjls.cc: restarting_hjls"])

p("C57","FPTuple_f::relation: the tested value is that of the returned vector",
 "relation(C,alpha,...) of FPTuple_f returns 0 or 1. When it returns 1, C is d x 1 and the value that passed the gap test is exactly |x.C| (1 if it is 0), x the input scaled by 2^alpha and rounded, whatever transformations the floating-point reductions produced. If these are unimodular, C is primitive.",
 "all inputs, all results of the inner reductions, all arithmetics of the gap test",
 "accumulated transformations over an unbounded number of lifts",
 ["src/relations_f.cc: relation, relation_f_z, detect_lift_f_z", "src/mat.h: matprod_in_si, matprod_in"])
p("C58","FPTuple_f::relation: termination and overflow",
 "With shift >= 1, increment >= 1 and d <= 8192, relation() returns (at most alpha rounds of at most shift lifts) and the products of the long transformations never overflow. With shift <= 0 and alpha >= 1 it never returns.",
 "all inputs, parameters and inner results (longs)",
 "non-termination and absence of overflow for all inputs",
 ["src/relations_f.cc: relation_f_z, detect_lift_f_z", "src/mat.h: maxbitsize, matprod_in"])
p("C59","FPTuple_f::relation ignores sizemethod and delta",
 "The result of relation() does not depend on its parameters sizemethod and delta (contrary to their documentation by name): each call passes delta at the position of sizemethod.",
 "all inputs and parameter values",
 "independence over all values",
 ["src/relations_f.cc: relation, relation_f_z", "src/relations_f.h"])

p("C60","Arithmetic of extended-exponent numbers (ldpe_t)",
 "For normalised operands (mantissa in [1/2,1), or zero with the smallest exponent) the results of multiplication, division, square root are normalised and are the exact result rounded to nearest on 64 bits; addition and subtraction have relative error at most 2^-63, and are rounded to nearest when the exponents differ by at most 64 (not always beyond). All are defined for exponents of at most 10^9 in size, except products with and quotients of zero, which can compute an int below INT_MIN.",
 "all pairs of numbers, all exponents",
 "rounding statements about all mantissas and exponents",
 ["src/ldpe.h: ldpe_add, ldpe_sub, ldpe_mul, ldpe_div, ldpe_sqrt, ldpe_normalize"])
p("C61","Comparison of extended-exponent numbers",
 "On normalised numbers cmp and sgn order the numbers by value. Zeros that are not normalised (from an integer 0, from mul_2si, from sqrt) compare as negative, and a zero obtained from an integer absorbs every positive number below 2^-65 when added to it.",
 "all pairs of numbers",
 "quantifies over all numbers; zeros from different origins",
 ["src/ldpe.h: ldpe_cmp, ldpe_cmp_d, ldpe_set_z, ldpe_mul_2si, ldpe_sqrt", "src/nr-ld.cpp: sgn, cmp"])
p("C62","Rounding extended-exponent numbers to integers",
 "For normalised |y| < 2^53, round and get_z give the nearest integer (halves away from zero), floor the largest integer below, ceil the smallest above. Beyond 2^53 the results pass through a double: floor(2^54+3) = 2^54+4, and the fractional part of 3/2+2^-63 is 1/2.",
 "all numbers below 2^53; the negative part by executions",
 "all numbers",
 ["src/ldpe.h: ldpe_round, ldpe_floor, ldpe_ceil, ldpe_frac, ldpe_get_z"])
p("C63","Conversion of long doubles and ldpe_t to mpz through a decimal string",
 "set_f from long double or from a normalised ldpe_t gives the nearest integer (halves away) for |y| < 2^63-1, and the exact value for exponents of at least 64, except that whenever the nearest integer is -1 the sprintf overruns its buffer by one byte. For 2^63-1/2 the lround is out of range.",
 "all numbers",
 "a boundary of the buffer length over all values",
 ["src/nr-ld.cpp: set_f"])
p("C64","Integer and exponent of an extended-exponent number",
 "get_si_exp of a normalised nonzero y returns (x,e) with e >= 0, |x| < 2^63, x 2^e truncating y with an error below 2^e and, when e > 0, below 2^-62 |y|; integers below 2^63 are returned exactly with e = 0. 2^64-1, although representable, is not returned exactly, and on zero an int below INT_MIN is computed.",
 "all numbers",
 "all numbers and exponents",
 ["src/ldpe.h: ldpe_get_si_exp", "src/nr-ld.cpp: get_si_exp"])
p("C65","Reduction over matrices with one exponent per column keeps the lattice",
 "With MatrixPE<double,dpe_t> (the class of the hplll program) or MatrixPE<long double,ldpe_t>, and with any other scalar type and matrix class whose get_si_exp returns no negative exponent, after any history of hlll, assign, set_num_S, set_nblov_max calls that return, getbase generates exactly the lattice of the basis last given, and for independent columns and one thread getU is unimodular with basis = input * U. The reduction is not always defined: an exact zero has exponent INT_MIN and a product with it overflows int, already for the columns (1,0,0),(0,2,1).",
 "all dimensions, bases, histories, parameters; any floating-point behaviour whatsoever",
 "quantifies over all histories and all possible floating-point results",
 ["src/matpe.h: MatrixPE", "src/hlll.cc: hlll, hsizereduce, seysenreduce, size_update", "src/hplll.cc: main"])
p("C66","Accuracy of the operations of MatrixPE",
 "Each entry is mantissa * 2^(exponent of its column). get returns the entry exactly, normalised. Writing an entry, a column of integers or of numbers, adding, subtracting, w - a z, dividing a column, scalar products and norms give the real result up to a relative error of a few 2^-53 (2^-64 for long double) of the operands plus a few times the smallest mantissa scaled by the exponent of the column; other columns are unchanged, copies and exchanges are exact, length 0 changes nothing. An operation on the first rows of a column does not keep the values of the other rows of that column.",
 "all matrices, indices, exponents and mantissas whose results are finite",
 "rounding statements about all mantissas and exponents",
 ["src/matpe.h: get, get_non_normalized, set, setcol, subcol, addcol, submulcol, fmasub, div, scalarprod, fp_norm, fp_norm_sq, colswap"])
p("C67","The matrix class does not change the result",
 "If every operation of a floating-point matrix class returns the value that the plain class returns (rows that an operation was not asked to write may be spoiled, except zeros), then on any basis of independent columns hlll with that class returns the same status, basis, transformation and counters as with the plain class, whatever the scalar operations, parameters and history of reductions. MatrixPE with exact mantissas and unbounded exponents is such a class: hlll over it returns LLL-reduced bases of the same lattice and terminates.",
 "all matrix classes satisfying the laws, all bases with independent columns, all histories of hlll, set_num_S, set_nblov_max; MatrixPE: exact mantissas, any normalisation",
 "the rows rescaled by the operations must never be read again, for every basis and execution",
 ["src/hlll.cc: hlll, householder_r, householder_v, seysenreduce, hsizereduce", "src/matpe.h: MatrixPE", "src/mat.h: matrix"])
p("C68","isreduced decides reducedness",
 "In exact arithmetic, for every basis of independent columns, isreduced(delta) always answers; it returns 0 exactly when multiples of earlier columns can be added to the columns so that the basis is LLL-reduced for delta, and -1 otherwise; it never accesses its matrices out of range.",
 "all dimensions, bases, delta <= 1, exact arithmetic (any rounding of halves), one thread, default method",
 "a decision procedure quantified over all bases; the criterion quantifies over all transformations",
 ["src/hlll.cc: isreduced", "src/isreduced.cc: main"])
p("C69","The estimates isreduced prints",
 "In exact arithmetic the first report of isreduced is right for every basis: the printed delta is the largest factor not above 1 for which the Lovasz conditions hold as the basis stands, ||b_1|| and Vol(L) are exact, and with the printed eta (and theta) the basis is weakly size reduced. The report of the basis after reduction is not: its eta can be 0 although the second vector has mu = 1/3.",
 "all dimensions and bases of independent columns; the negative part by an execution",
 "real-valued identities over all bases",
 ["src/hlll.cc: isreduced"])
p("C70","The programs hplll and isreduced",
 "Every option has the value of its last readable occurrence or its default, in any order and among any other words; an int option reads the decimal number written there (the nearest int if out of range); a command line that ends with an option name is undefined, as is a -type word of 8 characters or more. hplll -type cin prints as many rows, as long, as it reads, generating the same lattice, whatever the floating-point behaviour; in exact arithmetic, for independent rows, it ends and the printed rows are LLL-reduced for the -delta given. Its exit status is always 0, also when (with doubles) the printed basis is not even size reduced. The program isreduced, in exact arithmetic, always reaches the right verdict for 0.75.",
 "all command lines, all input matrices, all floating-point behaviours for the lattice",
 "quantifies over all command lines and inputs",
 ["src/hplll.cc: main", "src/isreduced.cc: main", "src/matgen.cc: command_line_basis", "src/tools.h: PARSE_MAIN_ARGS, MATCH_MAIN_ARGID"])
p("C71","The bases generated from the command line",
 "For every outcome of the random draws: -type r gives an identity below a random row, always independent; rb gives m random rows above rows of the identity, independent exactly when the m x m random block is; u gives m x d random entries, always dependent when m < d (as by default); dec gives rows with bits and shifted bits, dependent when m <= 0; c gives a triangular basis with the documented diagonal, independent exactly when the drawn X (and N if used) is not zero; al gives a triangular basis; cin gives the transpose of what is read. rb and dec with m > d, rb with m < 0 and unknown types are undefined.",
 "all options, all random draws",
 "quantifies over all random draws and sizes",
 ["src/matgen.cc: command_line_basis, genalpha"])

p("C72","Test vectors with a known integer relation",
 "With exact logarithms and exponentials, gen3r2s(n,r,s) returns the powers 1, a, ..., a^(n-1) of a = 3^(1/r) - 2^(1/s) when 2^r < 3^s; when 3^s < 2^r every entry but the first is NaN; as soon as n > r s the returned vector has a nonzero integer relation. gen3r2s7t5u returns the powers of -|3^(1/r) - 2^(1/s)| and of -|7^(1/t) - 5^(1/u)| for all exponents, and its two vectors have a common nonzero integer relation as soon as n > r s + t u.",
 "all sizes and all positive exponents, exact real functions",
 "existence of an integer relation between reals cannot be observed in floating point",
 ["src/matgen.cc: gen3r2s, gen3r2s7t5u"])

p("C73","Reduction with the SEYSEN option",
 "In exact arithmetic with the Seysen option (and the LONG option), when hlll returns 0 without exhausting its budget the basis is of the same lattice, every column is reduced in Seysen's sense over the binary blocks of its index (each block of the column is a combination with coefficients at most 1/2 of the diagonal block of R), so neighbouring entries are at most half the diagonal, the Lovasz conditions hold for delta and the first vector is within the LLL bound of the shortest one; hlll never gives up for delta <= 1, terminates, and the number of swaps has the LLL bound. Without the LONG option this is false: hlll can return 0 on an unreduced basis.",
 "all dimensions, bases of independent columns, delta, one thread, exact arithmetic; negative part by an execution",
 "a statement on all bases and all executions in exact arithmetic",
 ["src/hlll.cc: hlll, seysenreduce, seysen_update"])
p("C74","Threads and transformation do not change the basis",
 "Two histories of calls that differ only in their set_num_S calls (at least one thread each), on objects built from the same matrix with or without the transformation, have the same outcome, returned values, bases, R factors and counters, for any floating-point behaviour; consequently the exact-arithmetic guarantees (reducedness, termination) hold for any number of threads. With the SEYSEN option the number of threads does matter: blocks above the threshold are not reduced and hlll still returns 0.",
 "all matrices, histories, thread counts and thresholds, floating-point behaviours (conversions give integers)",
 "quantifies over pairs of histories and over all floating-point behaviours",
 ["src/hlll.cc: hlll, hsizereduce, size_update, size_update_R, psize_update_B, set_num_S"])

p("C75","What a 0 return of hlll certifies",
 "For any floating-point behaviour: when hlll returns 0 without exhausting its budget of tests, the matrix that getR then returns passes, as computed, the Lovasz test between every two neighbouring columns; with the default method every nonzero column of it passes the size test: all rounded quotients r(i,k)/r(i,i) are 0, or none exceeds 1 + |theta/r(i,i)| with theta = epsilon times the computed length of the column of the returned basis.",
 "all matrices with d <= n, histories of calls, thread counts, floating-point behaviours (conversions give integers)",
 "a postcondition over all inputs, histories and arithmetics; no test can vary the arithmetic",
 ["src/hlll.cc: hlll, hsizereduce, householder_r, householder_v, getR"])
p("C76","hlllp and newseysenreduce",
 "hlllp(delta, dthreshold) keeps the lattice, tracks the transformation (independent columns, one thread) and never accesses its matrices out of range when d <= n; without the SEYSEN option, or when dthreshold >= d - 1, it is hlll, step by step; when it returns 0 without exhausting its budget, the matrix of getR passes the same tests as after hlll and, with SEYSEN, in every column above dthreshold all the coefficients of Seysen's block back substitution pass the test against 0.501.",
 "all matrices, histories of calls, thresholds, thread counts, floating-point behaviours (conversions give integers)",
 "quantifies over all inputs, histories and arithmetics",
 ["src/hlll.cc: hlllp, newseysenreduce"])
p("C77","Certified inequalities with rounding errors",
 "If every operation has relative error at most u < 1 (MPFR at any precision, exponent range aside), then after a 0 return of hlll within its budget the matrix r of getR satisfies, between real numbers, delta (1-u)^2 r(k-1,k-1)^2 <= (1+u)^2 (r(k,k)^2 + r(k-1,k)^2) and, with the default method, (1-u)|r(i,k)| <= (1+u)|r(i,i)| + (1+u)^2 theta with theta at most epsilon (1+u)^(n/2+3) times the length of column k.",
 "all u, precisions, matrices with d <= n, histories, thread counts",
 "real inequalities for every precision and input",
 ["src/hlll.cc: hlll, hsizereduce"])

p("C78","Backward stability of the computed R factor",
 "If every operation has relative error at most u (standard model; MPFR at any precision, exponent range aside), then after a 0 return of hlll on a new object, within its budget and with no zero on the diagonal of getR, the matrix of getR is the exact R factor of B + E, where B is the basis of getbase and each column j of E is at most gam(u,n,j) times as long as the same column of B, with gam at most 12 (j+1)(5n+20) u; and this R factor satisfies the Lovasz and size inequalities with explicit factors.",
 "all arithmetics of the standard model, precisions, matrices with a staircase structure, methods, thread counts, delta",
 "an error bound over all inputs, precisions and executions",
 ["src/hlll.cc: hlll, householder_r, householder_v, hsizereduce, seysenreduce, getR"])

p("C79","The output vectors are hardly longer than the input",
 "In exact arithmetic, with the default method and delta <= 1, whenever hlll on a new object returns (0 or -1), every vector of the basis has squared length at most (d+3)/4 times that of the longest input vector.",
 "all matrices of independent columns, all delta <= 1, all budgets, with or without the transformation",
 "a bound over all inputs and all lengths of executions",
 ["src/hlll.cc: hlll, hsizereduce, size_update, getbase"])
p("C80","Machine integers: the right answer or undefined",
 "For any floating-point behaviour, hlll over a signed machine word of w bits (long, __int128_t) either behaves exactly as hlll over mpz_t or executes an overflowing (undefined) operation; no wrong basis is returned otherwise. Over long double this fails: nothing is undefined, but hlll can return 0 with a basis of another lattice once entries exceed 2^64.",
 "all words, matrices, options, floating-point behaviours, executions",
 "quantifies over all executions of two instantiations",
 ["src/hlll.cc: hlll, hsizereduce, size_update, seysenreduce", "src/nr_Z_l128.h: add, sub, mul_si, mul_2si, addmul_si, submul, set_f", "src/nr_Z_ld.h: the same"])
p("C81","Enough bits, no overflow",
 "In exact arithmetic, with the default method, 7/10 <= delta <= 1, no transformation and one thread: if the input vectors have squared length at most M and the integer type represents all integers up to X in absolute value with (d+3) M 25^(d-1) <= 4^(d-1) X^2, then hlll over this type never overflows: it behaves exactly as over mpz_t.",
 "all matrices of independent columns, all types (words, long double, mpz_t), all executions",
 "a bound on every intermediate value of every execution",
 ["src/hlll.cc: hlll, hsizereduce, size_update", "src/nr_Z_l128.h", "src/nr_Z_ld.h"])

p("C82","nullspace_indirect_decomp returns a basis of the kernel",
 "nullspace_indirect_decomp returns -1, or n-d with an n x (n-d) matrix C such that A*C = 0 and whose columns extend to a basis of Z^n; when the rows of A are independent they generate every integer kernel vector.",
 "every A, every behaviour of both floating-point types (rounding errors, NaN), every outcome",
 "for all inputs and arithmetics",
 ["src/nullspace.cc: nullspace_indirect_decomp, fgasgen","src/decomp.cc: Fgas::decomp"])
p("C83","Restarted search of integer relations",
 "restarting_hjls returns nbrel or -1; with exact arithmetic on the input it returns nbrel exactly when one and only one of the columns of C is a relation up to epsilon: for nbrel = 1 success means a relation. When one round suffices the columns of C are columns of a unimodular matrix. For nbrel = 2 the returned value means nothing (2 with a column that is no relation, -1 with two relations), and after a restart the returned vector need not be primitive.",
 "all inputs, numbers of rounds, floating-point behaviours; negative parts by executions",
 "quantifies over all inputs, numbers of restarts and arithmetics",
 ["src/hjls.cc: restarting_hjls","src/decomp.cc: Fgas::set, Fgas::decomp"])

p("C84","Relations by lifting",
 "lift_z (one row) returns 0, or 1 with a d x 1 vector C for which the number that passed the gap test was |A . C| (1 if this is 0), whatever the inner reductions did; if the inner reductions return unimodular transformations C is primitive, in particular non-zero. With shift >= 1, increment >= 1 and d <= 8192 every call returns and no product of longs overflows; with shift <= 0 and alpha >= 1 no call returns.",
 "all inputs, confidence gaps, shifts, increments, inner reductions and gap tests",
 "quantifies over all inputs and all results of the inner reductions",
 ["src/lift.cc: lift_z, lift_f_z"])
p("C85","Exchange of matrices with NTL",
 "mpztozz and zztompz transmit the absolute value only. A matrix sent with zzmat_to_ntlp modulo a prime given by next2prime(p, bits) and read back with ntlp_to_zzmat has the same dimensions and is entry by entry the representative in [2^bits - p, 2^bits); it is the same matrix if and only if the entries are in this range, in particular if they are below 2^bits in absolute value.",
 "all integers, matrices, bit sizes and primes",
 "quantifies over all integers and primes",
 ["src/mat.h: mpztozz, zztompz, next2prime, zzmat_to_ntlp, ntlp_to_zzmat"])
p("C86","Memory safety of the decompositions, kernels and HJLS relations",
 "For matrices with fewer rows than columns, no vector or matrix access of ZFgas::decomp, of hsizereduce, householder and decomp on a new Fgas object, of nullspace_direct_decomp, nullspace_hjls, nullspace_indirect_decomp, relations_hjls and restarting_hjls (at most n - d relations) is out of range, whatever the floating-point results are. For square matrices the three kernel functions do read out of range, and so does a second decomp on an object that has isolated its lattice.",
 "all dimensions 0 < d < n, inputs, floating-point behaviours (NaN included), uninitialised memory and numbers of iterations; negative parts by executions",
 "quantifies over all inputs, floating-point behaviours and execution lengths",
 ["src/decomp.cc: Fgas::decomp, Fgas::hsizereduce, Fgas::householder","src/decompz.cc: ZFgas::decomp","src/nullspace.cc","src/hjls.cc"])

p("C87","Memory safety of segment LLL",
 "No access to a matrix, a vector or the per-segment swap table is out of range in any sequence of hlll(delta, S, ...) and rotate on an SLattice object constructed for S0 segments, provided 0 < S <= S0 and rotate is given at most the padded number of columns, whatever the floating-point results and the uninitialised memory are. With more segments than the constructor was given the swap table is overrun although the columns divide evenly; rotate beyond the padded dimension reads out of range.",
 "all dimensions 1 <= d <= n, matrices (dependent columns included), histories, floating-point behaviours, uninitialised memory and numbers of iterations; negative parts by executions",
 "quantifies over all histories, floating-point behaviours and execution lengths",
 ["src/slll.cc: SLattice constructor, hlll, rotate, pmatprod, seysenreduce, hsizereduce, householder, reduce_and_gap_detect"])
p("C88","Memory safety of the wrappers and drivers",
 "No access is out of range in hlll<long>, hlll<__int128_t>, hlll<mpz_t> and slll<mpz_t> (at least as many rows as columns), slll_wrap with its recursion on gaps, blevel with blocks no wider than the columns are long, lehmer_lll for every shift, l1, nullspace_lll, relation_lll and FPTuple::lll, whatever the floating-point types compute. With fewer rows than columns hlll<mpz_t> reads out of range.",
 "all matrices of the stated shapes, parameters, floating-point behaviours and execution lengths; an external fplll that keeps the dimensions",
 "quantifies over all inputs, parameters, floating-point behaviours and execution lengths",
 ["src/wrappers.h: hlll, slll","src/slll-wrap.h: slll_wrap, slll_wrap_gap","src/block.h: blevel","src/lehmer.cc: lehmer_lll","src/l1.h: l1","src/nullspace.cc: nullspace_lll","src/relations_z.cc: relation_lll, lll"])

p("C89","The staged wrapper returns a reduced basis",
 "In exact real arithmetic, hlll<mpz_t> (and hlll<long> on 64 bit entries) on a matrix with independent columns and delta <= 1 ends, never leaves its arrays, and the basis of the same lattice it returns is LLL-reduced when d <= DIM_PREC_1 (one stage) and satisfies Seysen's and Lovasz' conditions for the last stage's delta otherwise; its first column is within (1/(delta-1/4))^((d-1)/2) of the shortest vector in every case. The outcome of hlll does not depend on how many loop turns the model allows, once it ends.",
 "all matrices with independent columns, all positions of the changes of stage, all delta <= 1, all initial memory contents",
 "a claim about every input matrix and every execution length",
 ["src/wrappers.h: hlll<mpz_t>, hlll<long>","src/hlll.cc: hlll, hsizereduce, seysenreduce"])
p("C90","Integer relations of real numbers, end to end",
 "FPTuple rounds 2^alpha x_j to nearest integers L_j; the vector C returned by lll or (with status 1) by relation is primitive, minimises |L.C| over the columns of a unimodular matrix, and |sum x_j C_j| <= 2^-alpha (|L.C| + sum|C_j|/2). In exact arithmetic lll ends, and if the x_j have an integer relation m then |L.C|^2 <= (1/(delta-1/4))^(d-1) ((sum|m_j|)^2/4 + |m|^2), whatever alpha. False of the code: C is a relation as soon as the reduced basis contains one (the column is chosen by |L.C| alone).",
 "all tuples of numbers that fit in the default precision, all alpha, all floating-point behaviours (values), exact arithmetic (bound)",
 "quantifies over all real inputs, relations and precisions",
 ["src/relations_z.cc: FPTuple, relation, lll"])

p("C91","The Lehmer-style driver returns a reduced basis",
 "lehmer_lll with lshift > 0 and no truncation, on a matrix whose rows below the first have independent columns: in exact arithmetic what is returned is an LLL-reduced basis of the lattice of A (so its first vector is short), although the one Lattice object is re-assigned and reduced again at every lifting step; no undefined behaviour; it ends when the inner bound exceeds twice the potential of the matrices visited. The factor is always 0.99: the delta argument plays no part.",
 "all such matrices, all shifts, all uninitialised memory, all numbers of lifting steps",
 "quantifies over all matrices and over the state left in the object by every earlier reduction",
 ["src/lehmer.cc: lehmer_lll","src/hlll.cc: assign, hlll"])

p("C92","Certificate of a successful reduction over IEEE doubles",
 "When hlll over double returns 0 without having used up its test budget, and the entries returned by getR are below 2^500 (tests a caller can make), the matrix R, read as real numbers, satisfies Lovasz's condition up to factors (1 +- 2^-53)^2 and an absolute 2^-1072, and, for HLLL and diagonal entries above 2^-500, |r(i,k)| is at most (about) |r(i,i)| plus the tolerance 1e-11 |b_k|: overflow, underflow and NaN included.",
 "all matrices with at most 2^53 rows, all call histories, all uninitialised memory, all delta in [0,1] and all uses of the object before the call",
 "quantifies over all matrices and histories, and over every possible rounding error, overflow and underflow of the run",
 ["src/hlll.cc: hlll, hsizereduce, getR","src/defs.h"])

p("C93","The R factor computed over IEEE doubles is backward stable",
 "When hlll over double on a new object returns 0 without having used up its test budget, the returned entries are below 2^400 in absolute value, no returned column is zero and the diagonal entries of getR are between 2^-400 and 2^500 (tests a caller can make), the matrix R of getR is the exact R factor of a real matrix whose column j differs from column j of the returned basis by at most 12 (j+1)(5n+20) 2^-53 times its length; this exact factor satisfies the Lovasz and (for HLLL) the size inequalities of C92. Overflow and underflow of the intermediate results are taken into account.",
 "all matrices with 24 d (5n+20) <= 2^53 whose structure is covered by C05, all uninitialised memory, all parameters and numbers of threads",
 "quantifies over all matrices and over every rounding error, overflow and underflow of the run, and speaks of the exact R factor of a real matrix",
 ["src/hlll.cc: hlll, householder_r, householder_v, hsizereduce, getR, getbase","src/defs.h"])

p("C94","Integer kernel with one large enough shift",
 "nullspace_lll(C,A,lalpha,0,HLLL) in exact arithmetic ends (after a number of turns bounded from lalpha and the column lengths of A), and if A (d x n) has n-d independent integer kernel vectors of squared length at most M with M < (delta-1/4)^(n-1) 4^lalpha, it does not answer -1: it answers at least n-d, the first n-d columns of C form an LLL-reduced family of kernel vectors and have squared length at most M/(delta-1/4)^(n-1). With independent rows the answer is n-d and C is an LLL-reduced basis of the whole kernel.",
 "all integer matrices A with at least two columns, all shifts, all families of kernel vectors, all delta in (1/4,1], all initial memory contents",
 "quantifies over all matrices and all families of kernel vectors, and compares the answer with kernel vectors the program never sees",
 ["src/nullspace.cc: nullspace_lll","src/hlll.cc: hlll"])

p("C95","Kernel vector of an integer matrix by the restarted search",
 "nullspace_fp_hjls(C,AZ,setprec) always returns 0 and puts one n x 1 vector in C; only the number it prints says whether that vector is one of the kernel: with exact arithmetic on the scaled matrix it prints 1 exactly when every entry of AZ C is at most epsilon times the largest |AZ(i,j)|, hence, when epsilon max|AZ(i,j)| < 1, exactly when AZ C = 0. When one round suffices C is a column of a unimodular matrix. The returned value does not distinguish success from failure (two runs over doubles).",
 "all non-zero integer matrices, numbers of rounds, inner floating-point behaviours; negative part by executions",
 "quantifies over all matrices, restarts and arithmetics of the inner search",
 ["src/nullspace.cc: nullspace_fp_hjls","src/hjls.cc: restarting_hjls"])

p("C96","A stopped search for integer relations gives a lower bound on them",
 "In exact arithmetic, as long as Fgas::decomp has set no column aside, and whatever it returns (limits on sizes included): the matrix of getR() is upper triangular and is the R factor of the first d columns of getfgas(); every non-zero real vector whose products with the columns of the input are integers, and 0 for the first dec columns, has a squared length at least 1/r_ii^2 for some i >= dec. On the input [a^T | I], every non-zero integer relation m of the dec rows of a therefore satisfies |m|^2 >= 1 / max |r_ii|^2 over i >= dec: the bound of HJLS and PSLQ that a failed search is used for.",
 "all inputs, all dec, all parameters, all uninitialised memory, all numbers of steps and all ways of stopping, in exact arithmetic, when no diagonal entry of R is 0",
 "quantifies over all inputs, over every state in which the search can be stopped and over relations it never found",
 ["src/decomp.cc: decomp, hsizereduce, householder, getR, getfgas"])
p("C97","The search for an integer relation ends, within a number of turns given by its inputs",
 "In exact arithmetic, Fgas::decomp asked for one column (target dimension <= 1) always returns: with status 0 and at least that many columns set aside, or with -1. This holds without residue (dec = 0) when the first d columns of the input are linearly independent, and for the search of an integer relation of d real numbers (dec = 1, input [a^T | I], residue a) when the last number is not 0. With gamma^2 > 4/3, s the bound on the bit size of the coefficients, M >= 1 a bound on the squared lengths of those columns and D = d - dec, N turns are enough as soon as (1/4 + 1/gamma^2)^(N-1) M^(D^2) < ((2^s+1) gamma^d)^(-2 D^2), and every size reduction takes at most two passes.",
 "all inputs, all d, all n (dec = 0), all gamma and limits, all uninitialised memory, in exact arithmetic",
 "termination of a loop over all inputs, and a bound on the number of its turns that depends on them",
 ["src/decomp.cc: decomp, hsizereduce, householder"])

p("C98","The search for an integer relation finds one, or proves that none is short",
 "In exact arithmetic with a zero test that recognises the zeros, Fgas::decomp on d real numbers a (input [a^T | I], residue a, one column asked, last number not 0) either returns 0, and column d of getV() is then an integer relation of a, non-zero and primitive, or returns -1, and every non-zero integer relation m of a then satisfies |m|^2 >= (2^size - 1)^2, size being the given bound. With gamma >= 1 and gamma^2 > 4/3 it answers, and finds a relation whenever one shorter than 2^size - 1 exists. relations_hjls(C,A,1) then returns 1 and a primitive relation in C for every vector that has a relation shorter than 2^(2^63-1) - 1.",
 "all vectors of d >= 2 reals with last entry not 0, all gamma, all bounds, all uninitialised memory of the object (the work matrix of relations_hjls holding 0), in exact arithmetic",
 "quantifies over all real vectors and over all integer relations, including those the program never sees",
 ["src/decomp.cc: decomp, hsizereduce, householder, getV","src/hjls.cc: relations_hjls"])
p("C99","lcond at a given precision, at the precision of the basis, and with CHECK",
 "lcond(t,prec) with prec >= 2 answers the value that an mpfr object at precision prec built on getbase() gives to lcond(ANY,DEFAULT_PREC); lcond(t,UNKNOWN_PREC) the value at precision 2 d maxbitsize(getbase()). lcond(t,prec,CHECK) answers the first of the values at precisions prec, 2 prec, 3 prec, ... that equals the one before it (0 being taken for the one before the first), as soon as there is one, and never another value. The object is unchanged in the three cases.",
 "all objects, all precisions, all mpfr behaviours, all uninitialised memory",
 "quantifies over all objects and precisions and over loops of any number of turns",
 ["src/hlll.cc: lcond"])

p("C100","What the verdict of isreduced depends on",
 "Whatever was done with the object before, isreduced(delta) answers 0 exactly when hlll(delta), run on a new object with the same basis and structure at precision 53 for d <= 20 and 2d for larger d, makes d-1 tests, and -1 otherwise; the two runs end together and leave the same getbase() and getU(). The verdict and the basis therefore depend neither on the default precision at the call, nor on what getprec() returned, nor on uninitialised memory, nor on the floating-point data and the test counter left by earlier calls.",
 "all objects reached by sequences of calls with independent columns (without SEYSEN reduction, or with the long option), all precisions and arithmetics satisfying the sign condition on exponents, all uninitialised memory; bases whose columns end at the same row, or arithmetics where adding 0 changes nothing",
 "quantifies over all histories, precisions and memory contents",
 ["src/hlll.cc: isreduced, setprec, householder, hlll"])

with open(os.path.join(os.path.dirname(__file__),"..","properties.jsonl"),"w") as f:
    for q in P: f.write(json.dumps(q)+"\n")
