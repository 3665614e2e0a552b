(** * Model of src/matpe.h: matrices with one exponent per column

    [MatrixPE<T,DPET>]: entry (i,j) has the value [M[j][i] * 2^exp[j]]; T is [double]
    (DPET = dpe_t) or [long double] (DPET = ldpe_t).  The hplll program reduces with
    [MatrixPE<double,dpe_t>].  The operations on mantissas and on the extended numbers
    are the fields of a record, instantiated with Flocq floats.  [t_int] says what
    becomes of an exponent computed in type [int]: undefined behaviour outside the type
    (the C standard), or wraparound (what the usual compilers emit).  Line numbers: the
    specialisations for double; those for long double have the same text except where
    noted. *)
From Coq Require Import ZArith Lia List Bool Arith Floats.SpecFloat.
From Flocq Require Import Core.Core IEEE754.BinarySingleNaN.
From Verif Require Import Base Spec Mat FP Hlll HlllM Ldpe.
Import ListNotations.
Open Scope nat_scope.

Record tops (T F : Type) : Type := mk_tops {
  t_0 : T;
  t_add : T -> T -> T; t_sub : T -> T -> T; t_mul : T -> T -> T;
  t_inv : T -> T;                    (* 1.0 / x *)
  t_ldexp : T -> Z -> T;
  t_pow2 : Z -> T;                   (* pow(2.0, d) *)
  t_is0 : T -> bool;                 (* x == 0.0 *)
  t_mk : T -> Z -> res F;            (* DPE_MANT, DPE_EXP, then dpe_normalize *)
  t_raw : T -> Z -> F;               (* DPE_MANT, DPE_EXP *)
  t_mant : F -> T; t_exp : F -> Z;
  t_sqrt : F -> res F;               (* dpe_sqrt *)
  t_ofz : Z -> T * Z;                (* mpz_get_d_2exp *)
  t_int : Z -> res Z                 (* what happens to a value computed in type int *)
}.
Arguments t_0 {T F}. Arguments t_add {T F}. Arguments t_sub {T F}. Arguments t_mul {T F}.
Arguments t_inv {T F}. Arguments t_ldexp {T F}. Arguments t_pow2 {T F}. Arguments t_is0 {T F}.
Arguments t_mk {T F}. Arguments t_raw {T F}. Arguments t_mant {T F}. Arguments t_exp {T F}.
Arguments t_sqrt {T F}. Arguments t_ofz {T F}. Arguments t_int {T F}.

(** the data members M and exp, 47-53 *)
Record pe (T : Type) := mkPE { pm : mat T; px : list Z }.
Arguments mkPE {T}. Arguments pm {T}. Arguments px {T}.

Section PE.
Context {T F : Type} (tp : tops T F) (n d : nat).
Notation PE := (pe T).

Definition row (A : PE) (j i : nat) : T := mget (t_0 tp) (pm A) i j.
Definition ex (A : PE) (j : nat) : Z := nth j (px A) 0%Z.
(** replace the mantissas of column j by f and its exponent by e *)
Definition wcol (A : PE) (j : nat) (f : nat -> T) (e : Z) : PE :=
  mkPE (lupd (pm A) j (map f (seq 0 n))) (lupd (px A) j e).

(** resize, 71-90: everything is set to zero *)
Definition pe_zero : PE := mkPE (mtab n d (fun _ _ => t_0 tp)) (repeat 0%Z d).

(** get 589-598, get_non_normalized 617-625 *)
Definition pe_get (A : PE) (i j : nat) : res F :=
  guard ((i <? n) && (j <? d)) (t_mk tp (row A j i) (ex A j)).
Definition pe_getnn (A : PE) (i j : nat) : res F :=
  guard ((i <? n) && (j <? d)) (Ok (t_raw tp (row A j i) (ex A j))).

(** set(i,j,dpe), 517-544 *)
Definition pe_set (i j : nat) (x : F) (A : PE) : res PE :=
  guard ((i <? n) && (j <? d))
  (let m := t_mant tp x in
   if t_is0 tp m then Ok (wcol A j (fun k => if k =? i then t_0 tp else row A j k) (ex A j))
   else
     let* dd := t_int tp (t_exp tp x - ex A j) in
     (if (0 <=? dd)%Z then
        Ok (wcol A j (fun k => if k =? i then m else t_ldexp tp (row A j k) (- dd)) (t_exp tp x))
      else Ok (wcol A j (fun k => if k =? i then t_ldexp tp m dd else row A j k) (ex A j)))).

(** set(i,j,0.0), 112-135 with x == 0 *)
Definition pe_set0 (i j : nat) (A : PE) : res PE :=
  guard ((i <? n) && (j <? d))
    (Ok (wcol A j (fun k => if k =? i then t_0 tp else row A j k) (ex A j))).

(** setcol(j, Z_NR<mpz_t>*, 0, l), 772-797; the exponent is a long converted to int:
    a value outside int is treated as undefined *)
Definition max_exp (l : list Z) : Z := fold_left Z.max l INT_MIN.
Definition pe_setcolz (j : nat) (b : list Z) (l : nat) (A : PE) : res PE :=
  if l =? 0 then Ok A
  else
    guard ((j <? d) && (l <=? n))
    (let m := max_exp (map (fun i => snd (t_ofz tp (nth i b 0%Z))) (seq 0 l)) in
     let* e := t_int tp m in
     (Ok (wcol A j (fun i => if i <? l
                             then let '(y, x) := t_ofz tp (nth i b 0%Z) in t_ldexp tp y (x - m)
                             else row A j i) e))).

(** setcol(j, FP_NR<dpe_t>*, l), 1004-1033 *)
Definition pe_setcolf (j : nat) (t : list F) (l : nat) (A : PE) : res PE :=
  if l =? 0 then Ok A
  else
    guard ((j <? d) && (l <=? n) && (l <=? length t))
    (let tt := firstn l t in
     let e := max_exp (map (t_exp tp) tt) in
     let* dl := mfold (fun x l => let* y := t_int tp (t_exp tp x - e) in Ok (l ++ [(t_mant tp x, y)])) tt [] in
     (Ok (wcol A j (fun i => match nth_error dl i with
                             | Some (m, y) => t_ldexp tp m y
                             | None => row A j i
                             end) e))).

(** setcol(j, colexp, l), 210-222 *)
Definition pe_copycol (j : nat) (W : PE) (jw : nat) (l : nat) (A : PE) : res PE :=
  if l =? 0 then Ok A
  else
    guard ((j <? d) && (jw <? d) && (l <=? n))
    (Ok (wcol A j (fun i => if i <? l then row W jw i else row A j i) (ex W jw))).

(** scalarprod, 1335-1355 *)
Definition pe_dot (V : PE) (jv kv : nat) (W : PE) (jw kw : nat) (len : Z) (old : F) : res F :=
  guard ((jv <? d) && (kv <=? n) && (jw <? d) && (kw <=? n))
  (if (len =? 0)%Z then Ok old
   else
     let l := Z.to_nat len in
     guard ((kv + l <=? n) && (kw + l <=? n))
     (let* e := t_int tp (ex V jv + ex W jw) in
      t_mk tp (fold_left (fun s i => t_add tp s (t_mul tp (row V jv (kv + i)) (row W jw (kw + i))))
                         (seq 0 l) (t_0 tp)) e)).

(** fp_norm_sq, 1288-1307; v[0] is read whatever the sign of the length *)
Definition pe_norm2 (V : PE) (jv kv : nat) (len : Z) (old : F) : res F :=
  guard ((jv <? d) && (kv <=? n))
  (if (len =? 0)%Z then Ok old
   else
     let l := Z.to_nat len in
     guard ((kv <? n) && (kv + l <=? n))
     (let* e := t_int tp (2 * ex V jv) in
      t_mk tp (fold_left (fun s i => t_add tp s (t_mul tp (row V jv (kv + i)) (row V jv (kv + i))))
                         (seq 1 (l - 1)) (t_mul tp (row V jv kv) (row V jv kv))) e)).

(** fp_norm, 1230-1254 *)
Definition pe_norm (V : PE) (jv kv : nat) (len : Z) (old : F) : res F :=
  let* q := pe_norm2 V jv kv len old in
  if (len =? 0)%Z then Ok q else t_sqrt tp q.

(** fmasub(j,k,w,z,a,l), 405-460 *)
Definition pe_fmasub (j k : nat) (W : PE) (jw kw : nat) (Zm : PE) (jz kz : nat) (a : F) (l : nat) (A : PE) : res PE :=
  guard ((jw <? d) && (kw <=? n) && (jz <? d) && (kz <=? n))
  (if l =? 0 then Ok A
   else
     guard ((j <? d) && (k + l <=? n) && (kw + l <=? n) && (kz + l <=? n))
     (let inr i := (k <=? i) && (i <? k + l) in
      if t_is0 tp (t_mant tp a) then
        Ok (wcol A j (fun i => if inr i then row W jw (kw + (i - k)) else row A j i) (ex W jw))
      else
        let* ep := t_int tp (t_exp tp a + ex Zm jz) in
        let* dd := t_int tp (ex W jw - ep) in
        (if (0 <=? dd)%Z then
           let m := t_ldexp tp (t_mant tp a) (- dd) in
           Ok (wcol A j (fun i => if inr i
                                  then t_sub tp (row W jw (kw + (i - k))) (t_mul tp m (row Zm jz (kz + (i - k))))
                                  else row A j i) (ex W jw))
         else
           let pp := t_pow2 tp dd in
           Ok (wcol A j (fun i => if inr i
                                  then t_sub tp (t_mul tp pp (row W jw (kw + (i - k))))
                                                (t_mul tp (t_mant tp a) (row Zm jz (kz + (i - k))))
                                  else if i <? k then t_mul tp pp (row A j i)
                                  else row A j i) ep)))).

(** div(j,k,w,a,l), 1185-1203; a negative length runs no iteration but sets the exponent *)
Definition pe_div (j k : nat) (W : PE) (jw kw : nat) (a : F) (len : Z) (A : PE) : res PE :=
  guard ((jw <? d) && (kw <=? n))
  (if (len =? 0)%Z then Ok A
   else
     let l := Z.to_nat len in
     guard ((j <? d) && (k <=? n) && (k + l <=? n) && (kw + l <=? n))
     (let* e := t_int tp (ex W jw - t_exp tp a) in
      let b := t_inv tp (t_mant tp a) in
      Ok (wcol A j (fun i => if (k <=? i) && (i <? k + l) then t_mul tp (row W jw (kw + (i - k))) b
                             else row A j i) e))).

(** subcol(j,k,l), 283-305; addcol(j,k,l), 331-365 (the case d == 0 without ldexp
    there gives the same numbers) *)
Definition pe_addsub (f : T -> T -> T) (j k l : nat) (A : PE) : res PE :=
  if l =? 0 then Ok A
  else
    guard ((j <? d) && (k <? d) && (l <=? n))
    (let* dd := t_int tp (ex A j - ex A k) in
     (if (0 <=? dd)%Z then
        Ok (wcol A j (fun i => if i <? l then f (row A j i) (t_ldexp tp (row A k i) (- dd)) else row A j i) (ex A j))
      else
        Ok (wcol A j (fun i => if i <? l then f (t_ldexp tp (row A j i) dd) (row A k i) else row A j i) (ex A k)))).
Definition pe_subcol := pe_addsub (t_sub tp).
Definition pe_addcol := pe_addsub (t_add tp).

(** submulcol(j,k,a,l), 646-674 *)
Definition pe_submulcol (j k : nat) (a : F) (l : nat) (A : PE) : res PE :=
  if l =? 0 then Ok A
  else
    guard ((j <? d) && (k <? d) && (l <=? n))
    (let* ep := t_int tp (t_exp tp a + ex A k) in
     let* dd := t_int tp (ex A j - ep) in
     (if (0 <=? dd)%Z then
        let m := t_ldexp tp (t_mant tp a) (- dd) in
        Ok (wcol A j (fun i => if i <? l then t_sub tp (row A j i) (t_mul tp m (row A k i)) else row A j i) (ex A j))
      else
        Ok (wcol A j (fun i => if i <? l then t_sub tp (t_ldexp tp (row A j i) dd) (t_mul tp (t_mant tp a) (row A k i))
                               else row A j i) ep))).

(** colswap(j,k), 253-262 *)
Definition pe_colswap (j k : nat) (A : PE) : res PE :=
  guard ((j <? d) && (k <? d))
    (Ok (mkPE (colswap (pm A) j k) (lupd (lupd (px A) k (ex A j)) j (ex A k)))).

Definition pe_ops : mops F PE :=
  mk_mops F PE pe_get pe_getnn pe_set pe_set0 pe_setcolz pe_setcolf pe_copycol pe_dot pe_norm2 pe_norm
    pe_fmasub pe_div pe_subcol pe_addcol pe_submulcol pe_colswap.

(** Lattice::init (hlll.cc 1991-2034) for this matrix class: resize zeroes R, Rkept,
    V, Bfp; the scalars are left as allocated *)
Definition pe_init (jVR : nat -> nat -> F) (jnB2 jtoR : nat -> F) (jx : F) (jn : nat) : gst F PE :=
  mkG pe_zero pe_zero pe_zero pe_zero (mtab d d jVR) (map jnB2 (seq 0 d)) jx (map jtoR (seq 0 n)) jn
      (repeat false (d + 1)) (repeat (-1)%Z d) (repeat 0 d).
End PE.

(** ** Flocq instances: mantissas of precision prec, extended numbers of Ldpe.v *)

(** [int] arithmetic: undefined outside the type, or modulo 2^32 *)
Definition int_strict (z : Z) : res Z := guard (is_int z) (Ok z).
Definition wint (z : Z) : Z := ((z + 2147483648) mod 4294967296 - 2147483648)%Z.
Definition int_wrap (z : Z) : res Z := Ok (wint z).

Section Flocq.
Context (prec emax : Z) {Hp : Prec_gt_0 prec} {He : Prec_lt_emax prec emax}.
Notation Tf := (binary_float prec emax).
Notation Df := (ldpe prec emax).

Definition fl_tops (ofz : Z -> Tf * Z) : tops Tf Df :=
  mk_tops Tf Df zerof (Bplus mode_NE) (Bminus mode_NE) (Bmult mode_NE)
    (Bdiv mode_NE Bone) (Bldexp mode_NE) (Bldexp mode_NE Bone) is0
    (fun m e => normalize (mkD m e)) mkD mant expn sqrt_ ofz int_strict.

(** r.submul(a,b) = product then difference (fplll, nr-ld.cpp) *)
Definition fl_submul (r a b : Df) : res Df := let* p := mul a b in sub r p.

(** constants given to FP_NR<FT> as doubles: set_d *)
Definition cst (m e : Z) : Df :=
  match normalize (mkD (fcvt prec emax (binary_normalize 53 1024 _ _ mode_NE m e false)) 0) with
  | Ok x => x | _ => mkD zerof EXPMIN end.

(** 0.1, 0.01 and 0.00000000001 are the nearest doubles *)
Definition fl_sops (setf : Df -> res Z) : sops Df :=
  mk_sops Df (cst 0 0) (cst 1 0) (cst 7205759403792794 (-56)) (cst 5764607523034235 (-59)) (cst 6189700196426901 (-89))
    add mul div ldpe_neg ldpe_abs sqrt_ round_ fl_submul
    (fun w => (0 <=? cmp w (cst 0 0))%Z)
    (fun a b => (cmp a b <=? 0)%Z) (fun a b => (cmp a b <? 0)%Z) (fun a b => (cmp a b =? 1)%Z)
    (fun x => let* s := sgn x in Ok (negb (s =? 0)%Z))
    get_si_exp setf.

(** the same operations when [int] wraps around: ldpe.h 129-149, 266-354 *)
Definition normalize_w (x : Df) : Df :=
  if is0 (mant x) || negb (is_finite (mant x)) then
    if is0 (mant x) then mkD (mant x) EXPMIN else x
  else let '(m, e) := Bfrexp (mant x) in mkD m (wint (expn x + e)).
Definition addsub_w (f : Tf -> Tf -> Tf) (neg : Df -> Df) (y z : Df) : Df :=
  if (wint (expn z + prec) <? expn y)%Z then y
  else if (wint (expn y + prec) <? expn z)%Z then neg z
  else
    let dd := wint (expn y - expn z) in
    normalize_w
      (if (0 <=? dd)%Z then mkD (f (mant y) (scale (mant z) (wint (- dd)))) (expn y)
       else mkD (f (scale (mant y) dd) (mant z)) (expn z)).
Definition add_w := addsub_w (Bplus mode_NE) (fun z => z).
Definition sub_w := addsub_w (Bminus mode_NE) ldpe_neg.
Definition mul_w (y z : Df) : Df :=
  normalize_w (mkD (Bmult mode_NE (mant y) (mant z)) (wint (expn y + expn z))).
Definition div_w (y z : Df) : Df :=
  normalize_w (mkD (Bdiv mode_NE (mant y) (mant z)) (wint (expn y - expn z))).
Definition sqrt_w (y : Df) : Df :=
  let ey := expn y in
  if negb (Z.rem ey 2 =? 0)%Z then
    mkD (Bsqrt mode_NE (Bmult mode_NE (half prec emax) (mant y))) (Z.quot (wint (ey + 1)) 2)
  else mkD (Bsqrt mode_NE (mant y)) (Z.quot ey 2).

Definition flw_tops (ofz : Z -> Tf * Z) : tops Tf Df :=
  mk_tops Tf Df zerof (Bplus mode_NE) (Bminus mode_NE) (Bmult mode_NE)
    (Bdiv mode_NE Bone) (Bldexp mode_NE) (Bldexp mode_NE Bone) is0
    (fun m e => Ok (normalize_w (mkD m e))) mkD mant expn (fun x => Ok (sqrt_w x)) ofz int_wrap.
Definition flw_sops (setf : Df -> res Z) : sops Df :=
  mk_sops Df (cst 0 0) (cst 1 0) (cst 7205759403792794 (-56)) (cst 5764607523034235 (-59)) (cst 6189700196426901 (-89))
    (fun a b => Ok (add_w a b)) (fun a b => Ok (mul_w a b)) (fun a b => Ok (div_w a b))
    ldpe_neg ldpe_abs (fun x => Ok (sqrt_w x)) round_ (fun r a b => Ok (sub_w r (mul_w a b)))
    (fun w => (0 <=? cmp w (cst 0 0))%Z)
    (fun a b => (cmp a b <=? 0)%Z) (fun a b => (cmp a b <? 0)%Z) (fun a b => (cmp a b =? 1)%Z)
    (fun x => let* s := sgn x in Ok (negb (s =? 0)%Z))
    get_si_exp setf.
End Flocq.

(** MatrixPE<double,dpe_t> *)
Notation dpe_t := (ldpe 53 1024).
Definition dpe_tops : tops (binary_float 53 1024) dpe_t := fl_tops 53 1024 get_d_2exp.
Definition dpe_sops : sops dpe_t := fl_sops 53 1024 get_z.
Definition dpew_tops : tops (binary_float 53 1024) dpe_t := flw_tops 53 1024 get_d_2exp.
Definition dpew_sops : sops dpe_t := flw_sops 53 1024 get_z.
(** MatrixPE<long double,ldpe_t>: 801-829 converts through mpfr at 64 bits, to nearest *)
Definition ofz_ld (z : Z) : binary_float 64 16384 * Z :=
  match z with
  | 0%Z => (B754_zero false, 0%Z)
  | _ => let e := Zdigits radix2 z in
         let m := binary_normalize 64 16384 _ _ mode_NE z (- e) false in
         let '(m', e') := Bfrexp m in (m', (e + e')%Z)
  end.
Definition ldpe_tops : tops (binary_float 64 16384) ldpe_t := fl_tops 64 16384 ofz_ld.
Definition ldpe_sops : sops ldpe_t := fl_sops 64 16384 set_f_ldpe.
Definition ldpew_tops : tops (binary_float 64 16384) ldpe_t := flw_tops 64 16384 ofz_ld.
Definition ldpew_sops : sops ldpe_t := flw_sops 64 16384 set_f_ldpe.
