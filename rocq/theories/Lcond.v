(** * Lattice::lcond (src/hlll.cc 2531-2755) and ratio (src/ratio.h 42-178) *)
From Coq Require Import ZArith Lia List Bool Arith.
From Verif Require Import Base Spec Mat FP Hlll Hlll2.
Import ListNotations.

(** Z_NR<long>::exponent (fplll): 0 for 0, otherwise the number of bits *)
Definition zexpo (z : Z) : Z := (if z =? 0 then 0 else Z.log2 (Z.abs z) + 1)%Z.

Section Cond.
Context {F : Type} (fp : fpops F).
Notation fz := (fzero fp).

(** hlll.cc 2626-2639 and ratio.h 88-101 (Higham, Method 1), row j: [aR] holds |R|; entries of row j of [iR] *)
Definition hg_neg (R : mat F) (j : nat) (M : mat F) (k : nat) : mat F :=
  mset M j k (fneg fp (fmul fp (mget fz M j j) (mget fz R j k))).
Definition hg_sub (R : mat F) (j k : nat) (M : mat F) (i : nat) : mat F :=
  mset M j k (fsub fp (mget fz M j k) (fmul fp (mget fz M j i) (mget fz R i k))).
Definition hg_ent (R : mat F) (j : nat) (M : mat F) (k : nat) : mat F :=
  let M1 := fold_left (hg_sub R j k) (seq (j + 1) (k - (j + 1))) M in
  mset M1 j k (fdiv fp (mget fz M1 j k) (mget fz R k k)).
Definition hg_row (d : nat) (R aR : mat F) (iR : mat F) (j : nat) : mat F :=
  let iR1 := mset iR j j (fdiv fp (fone fp) (mget fz aR j j)) in
  let iR2 := fold_left (hg_neg R j) (seq (j + 1) (d - (j + 1))) iR1 in
  fold_left (hg_ent R j) (seq (j + 1) (d - (j + 1))) iR2.

Definition higham (d : nat) (R aR iR0 : mat F) : mat F := fold_left (hg_row d R aR) (seq 0 d) iR0.

(** hlll.cc 2651-2656, ratio.h 112-117: entry (i,j) of aR * iR *)
Definition prod_entry (d : nat) (aR iR : mat F) (i j : nat) : F :=
  fold_left (fun acc k => faddmul fp acc (mget fz aR i k) (mget fz iR k j)) (seq 1 (d - 1))
            (fmul fp (mget fz aR i 0) (mget fz iR 0 j)).

(** hlll.cc 2660-2667, ratio.h 121-129 *)
Definition frob (d : nat) (P : mat F) : F :=
  fsqrt fp (fold_left (fun acc i => fold_left (fun acc j => faddmul fp acc (mget fz P i j) (mget fz P i j)) (seq 0 d) acc)
                      (seq 0 d) fz).

(** the common part of lcond (hlll.cc 2606-2667) and ratio (ratio.h 62-129): [iR0] is the matrix iR before
    "iR(i,i) = 1.0" *)
Definition cond_value (d : nat) (Rg iR0 : mat F) : F :=
  let aR := mtab d d (fun i j => fabs fp (mget fz Rg i j)) in
  let iR1 := fold_left (fun M i => mset M i i (fone fp)) (seq 0 d) iR0 in
  let iR2 := higham d Rg aR iR1 in
  let iR3 := mtab d d (fun i j => fabs fp (mget fz iR2 i j)) in
  frob d (mtab d d (prod_entry d aR iR3)).

Variable fexpo : F -> Z.   (* FP_NR<FT>::exponent() *)

(** ** lcond(ANY, DEFAULT_PREC), hlll.cc 2592-2671.  [junk] is the content of the entries of iR that the code never
    initialises: matrix<T>::resize (mat.h 121-136) no longer clears them *)
Definition lcond_any (junk : nat -> nat -> F) (L : lattice F) : res (Z * lattice F) :=
  let c := lcfg L in
  let* f := householder fp c (iB (li L)) (lf L) in
  guard (cd c <=? cn c)
    (Ok (fexpo (cond_value (cd c) (fR f) (mtab (cd c) (cd c) junk)), mkL c (li L) f (lc L))).

(** ** lcond(TRIANGULAR_PROPER, DEFAULT_PREC), hlll.cc 2540-2586.  [tmp.cmp(eta) > 0] is [flt eta tmp] *)
Definition tri_R (c : cfg) (B : mat Z) (R : mat F) : res (mat F) :=
  mfold (fun j R => guard (j <? cn c) (Ok (setcol_z fp R j (col B j) (j + 1)))) (seq 0 (cd c)) R.

Definition fmaxq (q : nat * nat -> F) (l : list (nat * nat)) : F :=
  fold_left (fun e p => if flt fp e (q p) then q p else e) l fz.

Definition tri_eta (d : nat) (R : mat F) : F :=
  fmaxq (fun p => fabs fp (fdiv fp (mget fz R (fst p) (snd p)) (mget fz R (fst p) (fst p))))
    (flat_map (fun j => map (fun i => (i, j)) (seq 0 j)) (seq 1 (d - 1))).

Definition tri_quo (d : nat) (R : mat F) : F :=
  fmaxq (fun p => fabs fp (fdiv fp (mget fz R (snd p) (snd p)) (mget fz R (fst p) (fst p))))
    (flat_map (fun j => map (fun i => (i, j)) (seq 0 d)) (seq 0 d)).

Definition lcond_tri (L : lattice F) : res (Z * lattice F) :=
  let c := lcfg L in
  let d := cd c in
  let* R := tri_R c (iB (li L)) (fR (lf L)) in
  guard (d <=? cn c)
    (Ok ((fexpo (tri_quo d R) + ((Z.of_nat d - 1) + fexpo (fadd fp (fone fp) (tri_eta d R))) + (1 + zexpo (Z.of_nat d)))%Z,
         mkL c (li L) (set_R R (lf L)) (lc L))).

(** lcond(tproper, DEFAULT_PREC) *)
Definition lcond_default (tproper : Z) (junk : nat -> nat -> F) (L : lattice F) : res (Z * lattice F) :=
  if (tproper =? 1)%Z then lcond_tri L else lcond_any junk L.

End Cond.

(** ** lcond(tproper, flagprec, flagheur) with the MPFR default precision.

    [getprec] is R(0,0).get_prec() as a function of the default precision (the identity for mpfr_t: fplll's get_prec
    is static; a constant for the other types).  [mp p] is mpfr arithmetic at precision p.  The state is the default
    precision.  [junk k] is the uninitialised memory of the k-th computation. *)
Section Prec.
Context {F M : Type} (fp : fpops F) (fexpo : F -> Z) (mp : Z -> fpops M) (mexpo : Z -> M -> Z) (getprec : Z -> Z).
Variable Jm : nat -> junk_t (F := M).
Variable mjunk : nat -> nat -> nat -> M.

(** "Lattice<mpz_t, mpfr_t, ...> L(getbase()); L.lcond(ANY, DEFAULT_PREC)" at default precision p *)
Definition inner_lcond (k : nat) (p : Z) (L : lattice F) : res Z :=
  let c := lcfg L in
  let L' := new_lattice (mp p) (Jm k) (cn c) (cd c) (getbase L) false 0 true 0 in
  let* (v, _) := lcond_any (mp p) (mexpo p) (mjunk k) L' in Ok v.

(** hlll.cc 2705-2722: the precision is increased by flagprec until two consecutive values agree.  [cond] is an int *)
Fixpoint check_loop (fuel : nat) (k : nat) (flagprec prec oldcond : Z) (L : lattice F) : res Z :=
  match fuel with
  | O => NoFuel
  | S fuel' =>
      let prec' := (prec + flagprec)%Z in
      let* v := inner_lcond k prec' L in
      if (v =? oldcond)%Z then Ok v else check_loop fuel' (k + 1) flagprec prec' v L
  end.

(** [bits] is maxbitsize(getbase()), [dprec] the default precision at the call; result: value, object, default
    precision after the call.  hlll.cc 2689 and 2748 ("mpfr_set_default_prec(oldprec)" after the return) are unreachable *)
Definition lcond (fuel : nat) (junk : nat -> nat -> F) (bits : Z) (tproper flagprec flagheur dprec : Z) (L : lattice F)
  : res (Z * lattice F * Z) :=
  if (flagprec =? 0)%Z then
    let* (v, L') := lcond_default fp fexpo tproper junk L in Ok (v, L', dprec)
  else if ((2 <=? flagprec) && (flagheur =? 0))%Z then
    let* v := inner_lcond 0 flagprec L in Ok (v, L, flagprec)
  else if ((2 <=? flagprec) && (flagheur =? 1))%Z then
    let oldprec := getprec dprec in
    let* v := check_loop fuel 0 flagprec 0 0 L in Ok (v, L, oldprec)
  else if (flagprec =? 1)%Z then
    let p := (2 * Z.of_nat (cd (lcfg L)) * bits)%Z in
    let* v := inner_lcond 0 p L in Ok (v, L, p)
  else Ok (0%Z, L, dprec).

End Prec.

(** ** ratio(B, lfcond, av_ratio, max_ratio, c), ratio.h 42-178, in the arithmetic [fp] at precision 2d.
    [flog2] = mpfr_log2, [fpow2] = pow(2.0, .).  Result (lfcond, av_ratio, max_ratio, c) *)
Section Ratio.
Context {F : Type} (fp : fpops F) (flog2 fpow2 : F -> F).
Notation fz := (fzero fp).

Definition ratio (J : junk_t (F := F)) (n d : nat) (B : mat Z) : res (F * F * F * F) :=
  let L := new_lattice fp J n d B false 0 true 0 in
  let* f := householder fp (lcfg L) (iB (li L)) (lf L) in
  guard ((d <=? n) && (1 <=? d))
  (let Rg := getR fp (jR J) (mkL (lcfg L) (li L) f (lc L)) in
   let aR := fun i => fabs fp (mget fz Rg i i) in
   let lfcond := flog2 (cond_value fp d Rg (mtab d d (fun _ _ => fz))) in
   let q := fun i => fdiv fp (aR (i - 1)) (aR i) in
   let s := fold_left (fun s i => fadd fp s (q i)) (seq 1 (d - 1)) fz in
   let maxq := fold_left (fun m i => if flt fp m (q i) then q i else m) (seq 1 (d - 1)) fz in
   let dd := fset_z fp (Z.of_nat d) in
   let v := fold_left (fun v i => fmul fp v (aR i)) (seq 1 (d - 1)) (aR 0) in
   let t := fdiv fp (fsub fp (flog2 (aR 0)) (fdiv fp (flog2 v) dd)) dd in
   Ok (lfcond, fdiv fp s dd, maxq, fpow2 t)).
End Ratio.

(** ** isreduced(delta) with the default precision: hlll.cc 2287-2291 (53 or 2d), 2508 (back to what getprec() returned
    at the start), setprec 1882-1923 sets the MPFR default precision whatever the type FT.
    Result: value of the inner hlll, status, object, default precision afterwards *)
Definition isreduced_prec {F : Type} (mpf : Z -> fpops F) (getprec : Z -> Z) (fuel : nat) (delta junk : F)
    (J1 J2 : junk_t (F := F)) (dprec : Z) (L : lattice F) : res (Z * Z * lattice F * Z) :=
  let oldprec := getprec dprec in
  let p := if cd (lcfg L) <=? 20 then 53%Z else (2 * Z.of_nat (cd (lcfg L)))%Z in
  let* (r, st, L') := isreduced (mpf p) fuel delta junk J1 J2 L in
  Ok (r, st, L', oldprec).
