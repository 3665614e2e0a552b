(** * The floating-point type as a parameter

    [FP_NR<FT>] (fplll) is used through the operations below.  The record gives
    one arbitrary function per operation; nothing is assumed about them except
    where a theorem says so.  Hence a theorem for every [fpops] covers double,
    long double, dpe_t, mpfr_t at any precision, with any rounding, overflow or
    NaN behaviour. *)
From Coq Require Import ZArith.

Record fpops (F : Type) : Type := mk_fpops {
  fzero  : F;                      (* x = 0.0 *)
  fone   : F;                      (* x = 1.0 *)
  f01    : F;                      (* x = 0.1,  hlll.cc 1147 *)
  f001   : F;                      (* x = 0.01, hlll.cc 302 *)
  feps   : F;                      (* x = 0.00000000001, hlll.cc 1225 *)
  fadd   : F -> F -> F;            (* r.add(a,b) *)
  fsub   : F -> F -> F;            (* r.sub(a,b) *)
  fmul   : F -> F -> F;            (* r.mul(a,b) *)
  fdiv   : F -> F -> F;            (* r.div(a,b) *)
  fneg   : F -> F;                 (* r.neg(a) *)
  fabs   : F -> F;                 (* r.abs(a) *)
  fsqrt  : F -> F;                 (* r.sqrt(a) *)
  frnd   : F -> F;                 (* r.rnd(a): rounding to an integer *)
  faddmul : F -> F -> F -> F;      (* r.addmul(a,b), first argument the old r *)
  fsubmul : F -> F -> F -> F;      (* r.submul(a,b) *)
  fle    : F -> F -> bool;         (* a <= b *)
  flt    : F -> F -> bool;         (* a < b, also used for b > a *)
  fcmp1  : F -> F -> bool;         (* a.cmp(b) == 1 *)
  fnz    : F -> bool;              (* a.sgn() != 0 *)
  fset_z : Z -> F;                 (* set_z(a,z) *)
  fgse   : F -> Z * Z;             (* (lx, expo) with lx = a.get_si_exp(expo) *)
  fset_f : F -> Z                  (* set_f(z,a) *)
}.
Arguments fzero {F}. Arguments fone {F}. Arguments f01 {F}. Arguments f001 {F}.
Arguments feps {F}. Arguments fadd {F}. Arguments fsub {F}. Arguments fmul {F}.
Arguments fdiv {F}. Arguments fneg {F}. Arguments fabs {F}. Arguments fsqrt {F}.
Arguments frnd {F}. Arguments faddmul {F}. Arguments fsubmul {F}. Arguments fle {F}.
Arguments flt {F}. Arguments fcmp1 {F}. Arguments fnz {F}. Arguments fset_z {F}.
Arguments fgse {F}. Arguments fset_f {F}.

(** The one fact about the conversion [get_si_exp] that the integer side needs
    (fplll's implementation returns [expo = max(..., 0)]): the exponent is never
    negative, so that the integer multiple [lx * 2^expo] is an integer. *)
Definition expo_nonneg {F} (fp : fpops F) : Prop :=
  forall a : F, (0 <= snd (fgse fp a))%Z.
