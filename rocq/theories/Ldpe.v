(** * Model of src/ldpe.h: extended-exponent numbers with a long double mantissa

    A number is a mantissa, an IEEE float of precision [prec] (64 for the x87
    long double), and a separate exponent of C type [int].  Flocq's [binary_float]
    (a single NaN) is the type of the mantissas: infinities, NaN, signed zeros,
    subnormals and round to nearest even are all there.  Every operation of type
    [int] or [long] whose result leaves the type is undefined behaviour ([UB]).

    The algorithms are written for any mantissa format: [ldpe_t] is
    [prec = 64, emax = 16384]; fplll's own [dpe_t] (not part of /repo) is the same
    file with [prec = 53, emax = 1024]. *)
From Coq Require Import ZArith Reals Lia List Bool Floats.SpecFloat.
From Flocq Require Import Core.Core IEEE754.BinarySingleNaN.
From Verif Require Import Base.
Open Scope Z_scope.

(** C [int] and [long] (LP64) *)
Definition INT_MIN : Z := - 2147483648.
Definition INT_MAX : Z := 2147483647.
Definition is_int (z : Z) : bool := (INT_MIN <=? z) && (z <=? INT_MAX).
Definition is_long (z : Z) : bool := (- 9223372036854775808 <=? z) && (z <=? 9223372036854775807).

Global Instance p64 : Prec_gt_0 64 := eq_refl.
Global Instance p64e : Prec_lt_emax 64 16384 := eq_refl.
Global Instance p53 : Prec_gt_0 53 := eq_refl.
Global Instance p53e : Prec_lt_emax 53 1024 := eq_refl.

(** conversion between float formats, round to nearest even (C 6.3.1.5) *)
Definition fcvt {p e} (p' e' : Z) {Hp : Prec_gt_0 p'} {He : Prec_lt_emax p' e'} (x : binary_float p e)
  : binary_float p' e' :=
  match x with
  | B754_zero s => B754_zero s
  | B754_infinity s => B754_infinity s
  | B754_nan => B754_nan
  | B754_finite s m k _ => binary_normalize p' e' Hp He mode_NE (cond_Zopp s (Zpos m)) k s
  end.

Notation dbl := (binary_float 53 1024).

(** [mpz_get_d_2exp] (GMP): [d] in [1/2,1) truncated towards zero; (0,0) for 0 *)
Definition get_d_2exp (z : Z) : dbl * Z :=
  match z with
  | 0 => (B754_zero false, 0)
  | _ => let e := Zdigits radix2 z in (binary_normalize 53 1024 _ _ mode_ZR z (- e) false, e)
  end.

(** [mpz_set_d] (GMP): truncation; undefined for infinities and NaN *)
Definition mpz_set_d (x : dbl) : res Z := guard (is_finite x) (Ok (Btrunc x)).

Section Ldpe.
Context (prec emax : Z) {Hp : Prec_gt_0 prec} {He : Prec_lt_emax prec emax}.
Notation T := (binary_float prec emax).

(** ldpe_struct, 79-83 *)
Record ldpe := mkD { mant : T; expn : Z }.

(** LDPE_BITSIZE, LDPE_EXPMIN: 55, 71 *)
Definition bitsize : Z := prec.
Definition EXPMIN : Z := INT_MIN.

(** conversions of C integers to the mantissa type *)
Definition of_Z (z : Z) : T := binary_normalize prec emax Hp He mode_NE z 0 false.
(** conversion [(long) d]: truncation, undefined outside [long] *)
Definition to_long (x : T) : res Z :=
  guard (is_finite x && is_long (Btrunc x)) (Ok (Btrunc x)).

Definition zerof : T := B754_zero false.
Definition is0 (x : T) : bool := Beqb x zerof.
Definition ltf (x y : T) : bool := Bltb x y.

(** LDPE_SIGN, 89 *)
Definition sign (x : ldpe) : Z := if ltf (mant x) zerof then -1 else if ltf zerof (mant x) then 1 else 0.

(** ldpe_set, ldpe_neg, ldpe_abs: 103-125 *)
Definition ldpe_set (y : ldpe) : ldpe := y.
Definition ldpe_neg (y : ldpe) : ldpe := mkD (Bopp (mant y)) (expn y).
Definition ldpe_abs (y : ldpe) : ldpe :=
  mkD (if Bleb zerof (mant y) then mant y else Bopp (mant y)) (expn y).

(** ldpe_normalize, 129-149 *)
Definition normalize (x : ldpe) : res ldpe :=
  if is0 (mant x) || negb (is_finite (mant x)) then
    if is0 (mant x) then Ok (mkD (mant x) EXPMIN) else Ok x
  else
    let '(m, e) := Bfrexp (mant x) in
    guard (is_int (expn x + e)) (Ok (mkD m (expn x + e))).

(** ldpe_scale, 151-157 *)
Definition scale (d : T) (s : Z) : T := Bldexp mode_NE d s.

(** ldpe_set_d 160 (the argument is a double), ldpe_set_ld 169, ldpe_set_ui 178,
    ldpe_set_si 187 *)
Definition set_d (y : dbl) : res ldpe := normalize (mkD (fcvt prec emax y) 0).
Definition set_ld (y : T) : res ldpe := normalize (mkD y 0).
Definition set_si (y : Z) : res ldpe := normalize (mkD (of_Z y) 0).

(** ldpe_get_si, 195-200; ldpe_get_d, 209-213 *)
Definition get_si (x : ldpe) : res Z := to_long (Bldexp mode_NE (mant x) (expn x)).
Definition get_d (x : ldpe) : dbl := fcvt 53 1024 (Bldexp mode_NE (mant x) (expn x)).

(** ldpe_set_z, 225-231: [mpz_get_d_2exp] through a double, no normalisation *)
Definition set_z (y : Z) : res ldpe :=
  let '(d, e) := get_d_2exp y in
  guard (is_int e) (Ok (mkD (fcvt prec emax d) e)).

(** 2^LDPE_BITSIZE, 56 *)
Definition pow_bitsize : T := Bldexp mode_NE Bone prec.

(** ldpe_get_z, 235-254: [mpz_set_d] converts its argument to double *)
Definition get_z (y : ldpe) : res Z :=
  let ey := expn y in
  if bitsize <=? ey then
    let d := Bmult mode_NE (mant y) pow_bitsize in
    let* x := mpz_set_d (fcvt 53 1024 d) in
    Ok (x * 2 ^ (ey - bitsize))
  else if ey <? 0 then Ok 0
  else
    let d := Bldexp mode_NE (mant y) ey in
    mpz_set_d (fcvt 53 1024 (Bnearbyint mode_NA d)).

(** ldpe_add, 266-290 *)
Definition add (y z : ldpe) : res ldpe :=
  guard (is_int (expn z + bitsize))
  (if expn z + bitsize <? expn y then Ok y
   else guard (is_int (expn y + bitsize))
   (if expn y + bitsize <? expn z then Ok z
    else
      let d := expn y - expn z in
      normalize
        (if 0 <=? d then mkD (Bplus mode_NE (mant y) (scale (mant z) (- d))) (expn y)
         else mkD (Bplus mode_NE (mant z) (scale (mant y) d)) (expn z)))).

(** ldpe_sub, 293-317 *)
Definition sub (y z : ldpe) : res ldpe :=
  guard (is_int (expn z + bitsize))
  (if expn z + bitsize <? expn y then Ok y
   else guard (is_int (expn y + bitsize))
   (if expn y + bitsize <? expn z then Ok (ldpe_neg z)
    else
      let d := expn y - expn z in
      normalize
        (if 0 <=? d then mkD (Bminus mode_NE (mant y) (scale (mant z) (- d))) (expn y)
         else mkD (Bminus mode_NE (scale (mant y) d) (mant z)) (expn z)))).

(** ldpe_mul, 320-326 *)
Definition mul (y z : ldpe) : res ldpe :=
  guard (is_int (expn y + expn z))
    (normalize (mkD (Bmult mode_NE (mant y) (mant z)) (expn y + expn z))).

(** the constant 0.5 of 335, of type double, exact *)
Definition half : T := Bldexp mode_NE Bone (-1).

(** ldpe_sqrt, 329-344; [%] and [/] of C truncate *)
Definition sqrt_ (y : ldpe) : res ldpe :=
  let ey := expn y in
  if negb (Z.rem ey 2 =? 0) then
    guard (is_int (ey + 1))
      (Ok (mkD (Bsqrt mode_NE (Bmult mode_NE half (mant y))) (Z.quot (ey + 1) 2)))
  else Ok (mkD (Bsqrt mode_NE (mant y)) (Z.quot ey 2)).

(** ldpe_div, 348-354 *)
Definition div (y z : ldpe) : res ldpe :=
  guard (is_int (expn y - expn z))
    (normalize (mkD (Bdiv mode_NE (mant y) (mant z)) (expn y - expn z))).

(** ldpe_mul_ui, 357-363; ldpe_div_ui, 366-372 *)
Definition mul_ui (y : ldpe) (z : Z) : res ldpe := normalize (mkD (Bmult mode_NE (mant y) (of_Z z)) (expn y)).
Definition div_ui (y : ldpe) (z : Z) : res ldpe := normalize (mkD (Bdiv mode_NE (mant y) (of_Z z)) (expn y)).

(** ldpe_mul_2si, 375-380 (e converted to int; in range here): no normalisation *)
Definition mul_2si (y : ldpe) (e : Z) : res ldpe :=
  guard (is_int e && is_int (expn y + e)) (Ok (mkD (mant y) (expn y + e))).

(** ldpe_get_si_exp, 400-419, sizeof(long) = 8 *)
Definition two63 : T := Bldexp mode_NE Bone 63.
Definition get_si_exp0 (y : ldpe) : res (Z * Z) :=
  let* x := to_long (Bmult mode_NE (mant y) two63) in
  guard (is_int (expn y - 63)) (Ok (x, expn y - 63)).

(** FP_NR<ldpe_t>::get_si_exp, nr-ld.cpp: the wrapper used by hlll; ldpe_zero_p is
    ldpe.h 505-509 *)
Definition get_si_exp (y : ldpe) : res (Z * Z) :=
  let* (x, e) := get_si_exp0 y in
  if is0 (mant y) then Ok (x, 0)
  else if e <? 0 then
    let* x' := to_long (Bldexp mode_NE (of_Z x) e) in Ok (x', 0)
  else Ok (x, e).

(** ldpe_cmp, 514-529 *)
Definition cmp (x y : ldpe) : Z :=
  let sx := sign x in
  let d := sx - sign y in
  if negb (d =? 0) then d
  else if expn y <? expn x then (if 0 <? sx then 1 else -1)
  else if expn x <? expn y then (if 0 <? sx then -1 else 1)
  else if ltf (mant x) (mant y) then -1 else if ltf (mant y) (mant x) then 1 else 0.

(** ldpe_cmp_d, 531-537 *)
Definition cmp_d (x : ldpe) (d : dbl) : res Z := let* y := set_d d in Ok (cmp x y).
(** FP_NR<ldpe_t>::sgn, nr-ld.cpp: cmp(0.0) *)
Definition sgn (x : ldpe) : res Z := cmp_d x (B754_zero false).

(** ldpe_round 556-569, ldpe_frac 573-588, ldpe_floor 591-608, ldpe_ceil 611-628:
    the results go through [ldpe_set_d], whose parameter is a double *)
Definition round_ (y : ldpe) : res ldpe :=
  if expn y <? 0 then set_si 0
  else if bitsize <=? expn y then Ok y
  else set_d (fcvt 53 1024 (Bnearbyint mode_NA (Bldexp mode_NE (mant y) (expn y)))).

Definition frac (y : ldpe) : res ldpe :=
  if expn y <=? 0 then Ok y
  else if bitsize <=? expn y then set_si 0
  else let d := Bldexp mode_NE (mant y) (expn y) in
       set_d (fcvt 53 1024 (Bminus mode_NE d (Bnearbyint mode_ZR d))).

Definition floor_ (y : ldpe) : res ldpe :=
  if expn y <=? 0 then if 0 <=? sign y then set_si 0 else set_si (-1)
  else if bitsize <=? expn y then Ok y
  else set_d (fcvt 53 1024 (Bnearbyint mode_DN (Bldexp mode_NE (mant y) (expn y)))).

Definition ceil_ (y : ldpe) : res ldpe :=
  if expn y <=? 0 then if 0 <? sign y then set_si 1 else set_si 0
  else if bitsize <=? expn y then Ok y
  else set_d (fcvt 53 1024 (Bnearbyint mode_UP (Bldexp mode_NE (mant y) (expn y)))).

(** ldpe_swap, 630-639 *)
Definition ldpe_swap (x y : ldpe) : ldpe * ldpe := (y, x).

End Ldpe.

Arguments mkD {prec emax}. Arguments mant {prec emax}. Arguments expn {prec emax}.
Arguments normalize {prec emax Hp}. Arguments add {prec emax Hp He}. Arguments sub {prec emax Hp He}.
Arguments mul {prec emax Hp He}. Arguments div {prec emax Hp He}. Arguments sqrt_ {prec emax Hp He}.
Arguments cmp {prec emax}. Arguments sign {prec emax}. Arguments ldpe_neg {prec emax}.
Arguments ldpe_abs {prec emax}. Arguments round_ {prec emax Hp He}. Arguments frac {prec emax Hp He}.
Arguments floor_ {prec emax Hp He}. Arguments ceil_ {prec emax Hp He}. Arguments get_z {prec emax Hp He}.
Arguments get_si_exp {prec emax Hp He}. Arguments mul_2si {prec emax}. Arguments is0 {prec emax}.
Arguments to_long {prec emax}. Arguments zerof {prec emax}. Arguments scale {prec emax Hp He}.
Arguments ltf {prec emax}. Arguments sgn {prec emax Hp He}. Arguments get_si_exp0 {prec emax Hp He}.

(** the type [ldpe_t] *)
Notation ldpe_t := (ldpe 64 16384).

(** ** Conversion to mpz through a decimal string, nr-ld.cpp 167-236 *)
Notation ld := (binary_float 64 16384).
Definition radix10 : radix := Build_radix 10 eq_refl.

(** bytes written by [sprintf(xc, "%.0Lf", x)] for an integral x: optional sign,
    decimal digits, terminating zero *)
Definition sprintf_bytes (x : Z) : Z :=
  (if x <? 0 then 1 else 0) + Z.max 1 (Zdigits radix10 x) + 1.

(** the length given to the array [xc], 172-177, 195-202, 219-224:
    2 for 0, ilogbl(|x|) + 2 otherwise *)
Definition xc_len (x : Z) : Z := if x =? 0 then 2 else Z.log2 (Z.abs x) + 2.

(** [char xc[l]; sprintf(xc,...); mpz_set_str(xz,xc,10)]: writing past [xc] is
    undefined behaviour *)
Definition via_string (x : Z) : res Z := guard (sprintf_bytes x <=? xc_len x) (Ok x).

(** lround: nearest, ties away from zero; the result must fit in a long *)
Definition lround (x : ld) : res Z :=
  let z := Btrunc (Bnearbyint mode_NA x) in
  guard (is_finite x && is_long z) (Ok z).

(** set_f(Z_NR<mpz_t>&, FP_NR<long double>), 167-184 *)
Definition set_f_ld (x : ld) : res Z := let* z := lround x in via_string z.

(** set_f(Z_NR<mpz_t>&, FP_NR<ldpe_t>), 188-233 *)
Definition set_f_ldpe (x : ldpe_t) : res Z :=
  if 64 <=? expn x then
    let* z := via_string (Btrunc (Bldexp mode_NE (mant x) 64)) in
    Ok (z * 2 ^ (expn x - 64))
  else
    let* z := lround (Bldexp mode_NE (mant x) (expn x)) in via_string z.
