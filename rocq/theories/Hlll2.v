(** * More members of [Lattice]: householder, setprec, isreduced, put, shift, shift_assign
    (src/hlll.cc; line numbers refer to that file) *)
From Coq Require Import ZArith Lia List Bool Arith.
From Verif Require Import Base Spec Mat FP Hlll.
Import ListNotations.

Section Model2.
Context {F : Type} (fp : fpops F) (c : cfg).
Notation n := (cn c).
Notation d := (cd c).
Notation fz := (fzero fp).

(** ** householder(), 2761-2808: orthogonalisation of all the columns *)

(** 2778-2781: one reflector applied to column kappa of R *)
Definition hh_reflect (kappa k : nat) (f : fst_ F) : res (fst_ F) :=
  let* v := gcol c (fV f) k k in
  let* r := gcol c (fR f) kappa k in
  let* p := scalarprod fp v r (n - k) in
  let* R' := fmasub fp c (fR f) kappa k r v p (n - k) in
  Ok (set_R R' f).

(** 2773-2806: one column *)
Definition hh_col (B : mat Z) (kappa : nat) (f : fst_ F) : res (fst_ F) :=
  let f1 := set_R (setcol_z fp (fR f) kappa (col B kappa) n) f in
  let* f2 := mfold (hh_reflect kappa) (seq 0 kappa) f1 in
  let* w0 := gR fp c (fR f2) kappa kappa in
  let* rc := gcol c (fR f2) kappa kappa in
  let* nr := fp_norm fp rc (n - kappa) in
  let '(s, rkk) := if fle fp fz w0 then (nr, fneg fp nr) else (fneg fp nr, nr) in
  let R3 := mset (fR f2) kappa kappa rkk in
  let w := fadd fp w0 s in
  let s2 := fsqrt fp (fmul fp s w) in
  guard ((kappa + 1 <=? n) && (d <=? n))
    (let V3 := lupd (fV f2) kappa
                 (map (fun i => if i =? kappa then fdiv fp w s2
                                else if kappa <? i then fdiv fp (mget fz R3 i kappa) s2
                                else mget fz (fV f2) i kappa) (seq 0 n)) in
     let R4 := lupd R3 kappa (map (fun i => if (kappa <? i) && (i <? d) then fz else mget fz R3 i kappa) (seq 0 n)) in
     Ok (set_R R4 (set_V V3 f2))).

Definition householder (B : mat Z) (f : fst_ F) : res (fst_ F) := mfold (hh_col B) (seq 0 d) f.

(** ** setprec(prec), 1882-1923: all floating-point members are reallocated with
    unspecified contents, Bfp is set to zero; the index members are kept *)
Definition setprec (J : junk_t (F := F)) (f : fst_ F) : fst_ F :=
  mkF (mtab n d (jR J)) (mtab n d (jRk J)) (mtab n d (jV J))
      (mtab n d (fun _ _ => fz)) (mtab d d (jVR J))
      (map (jnB2 J) (seq 0 d)) (fx f) (map (jtoR J) (seq 0 n)) (fnmax f)
      (fkept f) (fkmin f) (fdesc f).

End Model2.

Section Object2.
Context {F : Type} (fp : fpops F).

(** ** isreduced(delta), 2275-2510.  [fp] is the arithmetic at the temporary
    precision.  The printed estimates only read R at indices < d and B; the
    accesses that can be out of bounds are R(0,1), R(1,1) when d = 1 (2305-2306).
    Result: the value returned by the inner hlll (which the code ignores), the
    status returned by isreduced and the object. *)
Definition isreduced (fuel : nat) (delta : F) (junk : F) (J1 J2 : junk_t (F := F)) (L : lattice F)
  : res (Z * Z * lattice F) :=
  let c := lcfg L in
  let f1 := setprec fp c J1 (lf L) in
  let* f2 := householder fp c (iB (li L)) f1 in
  let* _ := gR fp c (fR f2) 0 1 in
  let* _ := gR fp c (fR f2) 1 1 in
  let L2 := mkL c (li L) f2 (mkC 0 (nbswaps (lc L)) (vdepth (lc L))) in
  let* (r, L3) := hlll fp fuel delta false junk L2 in
  let status := if (nblov (lc L3) =? Z.of_nat (cd c) - 1)%Z then 0%Z else (-1)%Z in
  Ok (r, status, mkL c (li L3) (setprec fp c J2 (lf L3)) (lc L3)).

(** ** put(A,...), 2193-2209 : B is overwritten by a (truncated) matrix, U reset
    to the identity; structure, col_kept, kappamin, nblov are NOT updated
    ("Cf structure, colkept, kappamin").  [M] is the result of [trunc]. *)
Definition put_raw (M : mat Z) (L : lattice F) : lattice F :=
  let c := lcfg L in
  mkL c (mkI (mtab (cn c) (cd c) (fn M)) (if ctransf c then id_mat (cd c) else iU (li L)) (iS (li L)))
      (lf L) (lc L).

(** ** shift(A,m,lsigma), 2233-2247: first m rows of B := A * 2^lsigma; U(i,i) := 1
    (fplll's resize to the same dimensions keeps the other entries) *)
Definition shift (A : mat Z) (m : nat) (lsigma : Z) (L : lattice F) : lattice F :=
  let c := lcfg L in
  let d := cd c in
  mkL c (mkI (mtab (cn c) d (fun i j => if i <? m then Z.shiftl (fn A i j) lsigma else fn (iB (li L)) i j))
             (if ctransf c then mtab d d (fun i j => if i =? j then 1%Z else fn (iU (li L)) i j) else iU (li L))
             (iS (li L)))
      (lf L) (lc L).

(** ** shift_assign(A,shift,sigma), 2148-2181: as assign, row i scaled by 2^shift[i]
    (mul_2si: floor division when negative); sigma is unused *)
Definition shift_assign (A : mat Z) (sh : list Z) (L : lattice F) : lattice F :=
  assign (mtab (cn (lcfg L)) (cd (lcfg L)) (fun i j => Z.shiftl (fn A i j) (nth i sh 0%Z))) L.

End Object2.
