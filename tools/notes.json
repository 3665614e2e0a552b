{
 "C01": [
  "proved",
  "every fpops, exit, method and thread count; histories of calls on one object included; histories include hlllp"
 ],
 "C02": [
  "proved",
  "single thread, independent columns; histories include hlllp"
 ],
 "C03": [
  "proved",
  "the literal claim 'exact for every thread count and rank' is refuted by two witnesses; what holds is proved"
 ],
 "C07": [
  "proved",
  ""
 ],
 "C08": [
  "proved",
  ""
 ],
 "C09": [
  "proved",
  "the meaning when the inner run succeeds, and a witness (genuine doubles) that a failing inner run is not reported"
 ],
 "C10": [
  "proved",
  "n >= d (and d >= 2 for isreduced); the remaining shapes are shown to go out of bounds; histories include hlllp"
 ],
 "C23": [
  "proved",
  ""
 ],
 "C24": [
  "proved",
  ""
 ],
 "C25": [
  "proved",
  "default reduction transparent; Seysen with NO_LONG exhibited to differ (converts the stale member x)"
 ],
 "C34": [
  "proved",
  ""
 ],
 "C14": [
  "proved",
  "every schedule, race freedom included; dc C >= 1"
 ],
 "C15": [
  "proved",
  "every schedule, race freedom, slices partition the rows, agreement with the whole-object model"
 ],
 "C16": [
  "proved",
  "also for block counts larger than the dimensions (empty blocks)"
 ],
 "C17": [
  "proved",
  "exact rows multiplied, every schedule; wrong for every S not dividing the rows"
 ],
 "C30": [
  "proved",
  "exact set of copied columns; documentation refuted for every n, d1 < d2"
 ],
 "C32": [
  "proved",
  ""
 ],
 "C40": [
  "proved",
  "pmaprod_diag_even: race proved for every t >= 2; product proved only under atomic accesses"
 ],
 "C11": [
  "proved",
  "round trips, exact domain, exact formula outside; modular behaviour refuted"
 ],
 "C12": [
  "proved",
  "all values but -2^127, shown undefined"
 ],
 "C13": [
  "proved",
  "the three overloads; the silent overflow of the long variant is exhibited"
 ],
 "C33": [
  "proved",
  "the two powers of ten are the C double expressions, with binary64 rounding (Flocq)"
 ],
 "C36": [
  "proved",
  "binary64 rounding (Flocq); the claim that the double-double is more precise is refuted"
 ],
 "C39": [
  "proved",
  ""
 ],
 "C21": [
  "proved",
  "inner hlll modelled (every fpops); products sequential (parallel ones: C14); int overflow of def+lshift not modelled"
 ],
 "C22": [
  "proved",
  "lllmethod = HLLL only (FPLLL is an external library); trunc with its double expressions"
 ],
 "C31": [
  "proved",
  "mixed_put and shiftRT (MatrixRZ objects) not included"
 ],
 "C05": [
  "proved",
  "staircase hypothesis; against the mark-erasing version and against a closed-formula version; IEEE doubles satisfy the zero law only up to the sign of zero and for finite values, so for them the theorem applies when the first column reaches the last nonzero row"
 ],
 "C06": [
  "proved",
  "default reduction, or the long option; refuted otherwise by a witness with doubles (assign keeps the stale copy Bfp)"
 ],
 "C41": [
  "proved",
  "default reduction, or the long option; Seysen + NO_LONG refuted by a witness"
 ],
 "C04": [
  "proved",
  "exact real arithmetic (record exact in Exact.v), default reduction (method < 1), one thread, new object; both the base and getR"
 ],
 "C38": [
  "proved",
  "from C04, for every nonzero vector of the input lattice"
 ],
 "C42": [
  "proved",
  "exact real arithmetic, default reduction, one thread"
 ],
 "C43": [
  "proved",
  "with the rounding of halves to zero (round-half-even); explicit bound on the iterations; C43_exact_terminates_length: bound in terms of the lengths of the input columns, log(M) d(d+1)/2 / log(1/delta)"
 ],
 "C44": [
  "proved",
  "any outcome of the call, also when the budget ends it; C44_exact_swaps_length: in terms of the lengths of the input columns"
 ],
 "C18": [
  "proved",
  "full loop of relation_lll with the inner hlll, truncation, confidence test; FPLLL as an external function under its contract"
 ],
 "C19": [
  "proved",
  "both variants (unique shift, Lehmer loop), the three lllmethods; fplll as an external function under its contract"
 ],
 "C20": [
  "proved",
  "every exit of ZFgas::decomp, both transformation modes, any floating-point type"
 ],
 "C45": [
  "proved",
  "any floating-point behaviour"
 ],
 "C46": [
  "proved",
  "any floating-point behaviour"
 ],
 "C47": [
  "proved",
  "any floating-point behaviour"
 ],
 "C26": [
  "proved",
  "padded lattice for all histories of hlll/rotate, any fpops; lattice of A when 2S | d or when the padding rows of the first d columns are zero; refuted otherwise by a witness with doubles"
 ],
 "C28": [
  "proved",
  ""
 ],
 "C48": [
  "proved",
  "blocks loop, even and odd phases, and pmatprod; nbswaps race exhibited"
 ],
 "C49": [
  "proved",
  "the positive claim is refuted by a witness with doubles"
 ],
 "C35": [
  "proved",
  "lcond_restores/isreduced_restores: the modes that restore; *_refuted: the modes that do not (the restoring statement after a return is unreachable; getprec of double is constant)."
 ],
 "C50": [
  "proved",
  "exact arithmetic (real numbers); the *_refuted theorem shows, with doubles, the dependence on uninitialised memory (iR below the diagonal)."
 ],
 "C51": [
  "proved",
  "exact arithmetic; the bound for |B(i,j)|<=|B(i,i)|, and the refutation without that hypothesis."
 ],
 "C52": [
  "proved",
  "exact arithmetic with exact log2 and pow; the *_refuted theorem: av_ratio is not the average of the d-1 ratios."
 ],
 "C27": [
  "proved",
  "staged hlll in the three integer types, slll_wrap / slll<mpz_t> (dthreshold >= 1); two refutations (entries beyond 64 bits; lattice lost through the padding of slll)"
 ],
 "C29": [
  "proved",
  "literal claim 'every column is written' refuted when bs does not divide d"
 ],
 "C37": [
  "proved",
  "every arithmetic of the real part for the column operations; exact reals for the values and products; the inconsistency of set/get is a refutation"
 ],
 "C53": [
  "proved",
  "the two double expressions for the exponents of ten are arbitrary functions"
 ],
 "C54": [
  "proved",
  "any arithmetic for the integer part; exact RT (reals) for getfgas"
 ],
 "C55": [
  "proved",
  "any arithmetic for primitivity; exact RT for |A C| <= epsilon"
 ],
 "C56": [
  "proved",
  "positive on unused objects; refuted (witness with doubles) on used ones"
 ],
 "C57": [
  "proved",
  "the inner reduction and the mpfr gap test are arbitrary functions"
 ],
 "C58": [
  "proved",
  "the inner reduction is assumed to return (long entries)"
 ],
 "C59": [
  "proved",
  "negative finding"
 ],
 "C60": [
  "proved",
  "mantissas are Flocq binary floats (64 bits, emax 16384); int overflow is undefined behaviour"
 ],
 "C61": [
  "proved",
  "negative part: zeros that are not normalised"
 ],
 "C62": [
  "proved",
  "negative part beyond 2^53"
 ],
 "C63": [
  "proved",
  "sprintf modelled by the number of bytes written; mpz_set_str o sprintf is the identity on integers"
 ],
 "C64": [
  "proved",
  "discharges the hypothesis expo_nonneg of C01 for ldpe_t"
 ],
 "C65": [
  "proved",
  "the run on (1,0,0),(0,2,1) reaches an int overflow (refuted claim); with wraparound it ends with the right answer"
 ],
 "C66": [
  "proved",
  "every operation used by hlll.cc; the variants of setcol for long, __int128_t, double, mpfr and mixed columns and normalize are not modelled"
 ],
 "C67": [
  "proved",
  "assign is excluded from the histories (it keeps stale rows, C06); the MatrixPE part is for exact mantissas, the rounding of each operation is C66"
 ],
 "C68": [
  "proved",
  "exact arithmetic; with rounding the verdict is heuristic"
 ],
 "C69": [
  "proved",
  "first report exact; the second report is refuted (C69_second_report_refuted)"
 ],
 "C70": [
  "proved",
  "text format of cin and cout not modelled; exit status and double behaviour refuted where they fail"
 ],
 "C71": [
  "proved",
  "t, n, nq, N, Nq are filled by fplll and only their shape is used; gen_intrel is modelled as documented in fplll"
 ],
 "C72": [
  "proved",
  "exact real log and exp (None for NaN); positive exponents; r, s <= 0 not covered"
 ],
 "C73": [
  "proved",
  "one thread and the LONG option; exact arithmetic; without LONG refuted (C73_no_long_refuted)"
 ],
 "C74": [
  "proved",
  "SEYSEN with several threads refuted (C74_seysen_threads_refuted)"
 ],
 "C75": [
  "proved",
  "d >= 2 columns; SEYSEN certifies only the Lovasz test (its size test is commented out in the code)"
 ],
 "C76": [
  "proved",
  "the constant 0.501 is a parameter c501; compt only prints and is left out"
 ],
 "C77": [
  "proved",
  "instances: exact reals (u = 0) and MPFR with p >= 2 bits and unbounded exponents (Flocq FLX)"
 ],
 "C78": [
  "proved",
  "instances: exact arithmetic (any u) and p-bit MPFR numbers with unbounded exponents (Flocq FLX, p >= 2), for which every staircase structure is covered; no zero on the computed diagonal is a hypothesis"
 ],
 "C79": [
  "proved",
  "exact arithmetic (C04 kind), method HSIZE, one thread; fresh object"
 ],
 "C80": [
  "proved",
  "entry points up to hlll; the conversion of a quotient to the integer type is the 64-bit one of set_f(dpe_t)/get_si as modelled in Machine.v; the long double claim is refuted on a 2x2 input"
 ],
 "C81": [
  "proved",
  "exact arithmetic, HSIZE, without TRANSFORM, one thread; instances 64-bit and 128-bit words, long double up to 2^64, mpz_t"
 ],
 "C82": [
  "proved",
  "any behaviour of the two floating-point types; the generating set entries never set by fgasgen are arbitrary"
 ],
 "C83": [
  "proved",
  "C83_return/C83_one_relation with exact RT arithmetic and any inner type; C83_first_round for any arithmetic; two negative results by execution with doubles (entries below 2^63)"
 ],
 "C84": [
  "proved",
  "for one row (the source: m = 1 for the moment) with ZT = long; the inner reduction and the gap test are arbitrary functions; C84_returns assumes that the inner reduction returns, with entries in long"
 ],
 "C85": [
  "proved",
  "NTL and GMP byte functions by their documentation; mpz_nextprime assumed to return a prime above its argument; the code is compiled only with NTL_GMP_LIP"
 ],
 "C86": [
  "proved",
  "any floating-point types; dimensions with 0 < d < n; decomp on a new Fgas object after any size reductions of existing columns; negative parts by execution with doubles"
 ],
 "C87": [
  "proved",
  "any floating-point types; calls with at most the constructor's number of segments; negative parts by execution with doubles"
 ],
 "C88": [
  "proved",
  "any floating-point types; the external fplll call is a parameter that keeps the dimensions"
 ],
 "C89": [
  "proved",
  "exact arithmetic in both stages; the bound 2^32-1 on the number of tests is a hypothesis of reducedness (the run follows fewer loop turns); termination and absence of undefined behaviour need no bound"
 ],
 "C90": [
  "proved",
  "mpfr numbers are dyadic rationals with default precision p; the claim that a relation in the basis is returned is refuted on a concrete run; C90_lll_ends_length bounds the turns from the sizes of the L_j"
 ],
 "C91": [
  "proved",
  "exact arithmetic, truncate = false; fewer than 2^32-1 Lovasz tests per inner reduction; termination is relative to a bound on the potential of the matrices visited (explicit inductive predicate), shown satisfiable on a two-step run"
 ],
 "C92": [
  "proved",
  "IEEE binary64 through the primitive floats of Coq (axioms of Coq.Floats.FloatAxioms) and Flocq; hypotheses are tests on the returned R and basis; like C75 it is about the computed R, not the exact factor of the basis"
 ],
 "C93": [
  "proved",
  "IEEE binary64 (primitive floats read through Flocq), exponent range included. C93_double_backward_stable: the backward error of C78 with explicit constants; C93_double_certificate: joined with the inequalities of C92. Hypotheses after the call are tests on getbase/getR; C93_case exhibits a run passing them. Same structure hypothesis as C05 (for doubles: the first column reaches the last non zero row)."
 ],
 "C94": [
  "proved",
  "unique shift (lsigma = 0), HLLL, exact arithmetic; the limit 2^32-1 on the number of tests must not be reached (C94_ends_length bounds them). C94_case meets every hypothesis and has a concrete fuel."
 ],
 "C95": [
  "proved",
  "Model NullFp.v on top of Restart.v (C83). The scaling by the largest entry is undone in exact RT arithmetic; the fixed return value is stated for every arithmetic; the negative part runs the model over doubles."
 ],
 "C96": [
  "proved",
  "C96_R_factor, C96_lower_bound and C96_relation_bound, for every way the call can end, in exact arithmetic with FT and RT the reals; the diagonal is assumed to be without zero (a test on what getR returns). HjlsBound.v: the columns < d of R stay the images of those of F by the reflectors stored in V. Cases: an exact run, and a stopped run over doubles whose bound 4.76 can be compared with the shortest relation (6)."
 ],
 "C97": [
  "proved",
  "C97_decomp_ends and C97_relation_ends (the number of turns), C97_decomp_returns and C97_relation_returns (the call returns, with which status), with FT and RT the reals and these laws on the types: no rounding, nearest integer of [-1/2,1/2] is 0, conversion to an integer off by at most 1, and the gap test of a quotient 0 succeeds. Proof: the R factor of the left columns (RGram.v), the turns as swaps followed by size reductions (HjlsTurn.v, HjlsTurn2.v), a potential divided by at least 1/(1/4+1/gamma^2) per turn and bounded below by the test on the bit size (HjlsEnd.v), and the case of a null last diagonal entry (HjlsHit.v: the last entry of Y is then 0, so that the column is set aside). Later columns (target dimension > 1) and dec > 1 are not covered."
 ],
 "C98": [
  "proved",
  "C98_found_or_none, C98_complete, C98_relations_hjls, with FT and RT the reals and the laws of C97, epsilon <= 0 and a gap test (confidence gap on a quotient) that succeeds exactly on the zeros. Proof (HjlsFind.v): without a hit the last entry of Y stays non-zero and the diagonal gives the bound of C96; the stop on the bit size gives the lower bound on the diagonal. For relations_hjls the entries of the work matrix that hjls.cc 77-81 leaves uninitialised are 0; C98_uninitialised_refuted: with NaNs there (new mpfr variables) a search that ends within 60 turns is not finished after 1000. Case: the vector (3,5), relation (5,-3)."
 ],
 "C99": [
  "proved",
  "C99_given, C99_unknown, C99_check, C99_check_ends, for any arithmetic and exponent functions. oldcond starts at 0 (hlll.cc 2696), so a first value 0 is accepted without a second computation: the theorem says so. That CHECK ends is not claimed (the values may never agree). Cases: an object over doubles."
 ],
 "C100": [
  "proved",
  "C100_isreduced_precision, C100_isreduced_anywhere. IsredPrec.v: setprec reallocates every floating-point member and sets Bfp to zero, householder() only changes R and V, hence the inner hlll starts from an object to which the transparency theorem (C05/C06) applies. object_on: the integer data and configuration of the object, new floating-point members, no test counted. Cases over doubles: a new object (-1) and the same after hlll (0)."
 ]
}