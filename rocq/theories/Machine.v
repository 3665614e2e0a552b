(** * [hplll::Lattice] over machine integers: ZT = long, __int128_t, long double

    The same template as in Hlll.v (src/hlll.cc), instantiated with integer types whose
    operations are not those of Z.  Only the functions that compute with integers are
    repeated here; householder_r, householder_v, lovasz, the swap and the bookkeeping are
    those of Hlll.v (they convert or move integers, which is exact for every ZT).
    The integer operations are in src/nr_Z_l128.h (ZT = __int128_t) and src/nr_Z_ld.h
    (ZT = long double); those of ZT = long are fplll's Z_NR<long>, of which the commented
    code in nr_Z_l128.h is a copy.  Line numbers refer to /repo/src/hlll.cc unless another
    file is given. *)
From Coq Require Import ZArith Lia List Bool Arith.
From Verif Require Import Base Spec Mat FP Hlll.
Import ListNotations.

(** ** Integer types *)

(** an integer type, with its values read as integers:
    [zres z] is the outcome of an operation (or conversion) whose exact result is z,
    [zshl a e] that of [mul_2si(a,e)] *)
Record zty := mkZ { zres : Z -> res Z; zshl : Z -> Z -> res Z }.

(** mpz_t: no operation can fail; [mul_2si] as in Hlll.bop *)
Definition zmpz : zty := mkZ (fun z => Ok z) (fun a e => Ok (Z.shiftl a e)).

Definition in_word (w z : Z) : bool := ((- 2 ^ (w - 1) <=? z) && (z <? 2 ^ (w - 1)))%Z.

(** a signed machine word of w bits: an operation whose exact result does not fit is a
    signed overflow, undefined behaviour; a shift by w or more is undefined
    (nr_Z_l128.h 333-340, "if b >= size_in_bits(a), the result is undefined"; add 294,
    sub 304, mul_si 324, addmul_si 362, submul 367, set_f 143-155).  A left shift is taken to be
    defined on negative numbers (C++20, and gcc before it). *)
Definition zword (w : Z) : zty :=
  mkZ (fun z => guard (in_word w z) (Ok z))
      (fun a e => if (0 <=? e)%Z then guard ((e <? w) && in_word w (a * 2 ^ e))%Z (Ok (a * 2 ^ e)%Z)
                  else guard (- e <? w)%Z (Ok (Z.shiftr a (- e)))).

(** nearest multiple of 2^k, ties to an even quotient *)
Definition zround_to (k z : Z) : Z :=
  (let m := 2 ^ k in let q := z / m in let r := z - q * m in
   if 2 * r <? m then q * m
   else if m <? 2 * r then (q + 1) * m
   else if Z.even q then q * m else (q + 1) * m)%Z.

(** the long double nearest to the integer z: 64 significant bits, ties to even *)
Definition zround64 (z : Z) : Z :=
  (let e := Z.log2 (Z.abs z) - 63 in if e <=? 0 then z else zround_to e z)%Z.

(** integers held in a long double (nr_Z_ld.h: add 147, sub 157, mul_si 177, mul_2si 187,
    addmul_si 207, submul 212, set_f 296): every result is rounded to 64 bits, nothing is
    undefined.  The exponent range of long double is taken to be unbounded. *)
Definition zldouble : zty := mkZ (fun z => Ok (zround64 z)) (fun a e => Ok (a * 2 ^ e)%Z).

(** an integer type that is right on [-X, X] *)
Record faithful (zt : zty) (X : Z) : Prop := {
  fa_res : forall z, (Z.abs z <= X)%Z -> zres zt z = Ok z;
  fa_shl : forall a e, (0 <= e)%Z -> (2 ^ e <= X)%Z -> (Z.abs (a * 2 ^ e) <= X)%Z -> zshl zt a e = Ok (a * 2 ^ e)%Z }.

(** ** Column operations with operations that may fail *)

(** the loops of mat.h 320-440 on rows ibeg .. ibeg+l-1, in that order *)
Fixpoint mzip (f : Z -> Z -> res Z) (ibeg l k : nat) (v w : list Z) : res (list Z) :=
  match v with
  | [] => Ok []
  | x :: v' =>
      let* y := (if ((ibeg <=? k) && (k <? ibeg + l))%bool then f x (nth k w 0%Z) else Ok x) in
      let* t := mzip f ibeg l (S k) v' w in
      Ok (y :: t)
  end.

Definition mcolop (f : Z -> Z -> res Z) (ibeg l : nat) (M : mat Z) (j k : nat) : res (mat Z) :=
  let* v := mzip f ibeg l 0 (col M j) (col M k) in Ok (lupd M j v).

Section Model.
Context {F : Type} (fp : fpops F) (c : cfg) (zt : zty).
Notation n := (cn c).
Notation d := (cd c).
Notation fz := (fzero fp).

(** subcol / addcol / addmulcol_si(-lx) / addmulcol_si_2exp(-lx,expo) / submulcol(xz), one row;
    the case tree of Hlll.bop *)
Definition bop_m (lx expo xz : Z) (v w : Z) : res Z :=
  if (expo =? 0)%Z then
    if (lx =? 1)%Z then zres zt (v - w)%Z
    else if (lx =? -1)%Z then zres zt (v + w)%Z
    else if clong c then let* p := zres zt (w * (- lx))%Z in zres zt (v + p)%Z
    else let* p := zres zt (xz * w)%Z in zres zt (v - p)%Z
  else if clong c then
    let* t := zres zt (w * (- lx))%Z in
    let* p := zshl zt t expo in
    zres zt (v + p)%Z
  else let* p := zres zt (xz * w)%Z in zres zt (v - p)%Z.

(** [set_f(xz, x)], executed only in the branches that use xz *)
Definition setf_m (lx expo : Z) (x : F) : res Z :=
  if (((expo =? 0)%Z && ((lx =? 1)%Z || (lx =? -1)%Z)) || clong c)%bool then Ok 0%Z
  else zres zt (fset_f fp x).

(** ** size_update, 1288-1412 *)
Definition size_update_step_m (kappa i : nat) (st : ist * fst_ F * bool) : res (ist * fst_ F * bool) :=
  let '(s, f, done) := st in
  let* rik := gR fp c (fR f) i kappa in
  let* rii := gR fp c (fR f) i i in
  let x := frnd fp (fdiv fp rik rii) in
  let f1 := set_x x f in
  if fnz fp x then
    let '(lx, expo) := fgse fp x in
    let nmax := nth i (iS s) 0 in
    guard (nmax <=? n)
     (let* xz := setf_m lx expo x in
      let f2 := set_R (colop fz (rop fp lx expo x) 0 (i + 1) (fR f1) kappa i) f1 in
      let* B' := mcolop (bop_m lx expo xz) 0 nmax (iB s) kappa i in
      let* U' := (if ctransf c then mcolop (bop_m lx expo xz) 0 (min d nmax) (iU s) kappa i else Ok (iU s)) in
      Ok (mkI B' U' (iS s), f2, true))
  else Ok (s, f1, done).

Definition size_update_m (s : ist) (f : fst_ F) (kappa from_i : nat) : res (ist * fst_ F * bool) :=
  mfold (size_update_step_m kappa) (down from_i 0) (s, f, false).

(** ** psize_update_B, 1505-1640, the threads one after the other *)
Definition psize_thread_step_m (kappa : nat) (vx : list F) (ibeg nloc i : nat) (B : mat Z) : res (mat Z) :=
  let xf := nth i vx fz in
  if fnz fp xf then
    let '(lx, expo) := fgse fp xf in
    let* xz := setf_m lx expo xf in
    mcolop (bop_m lx expo xz) ibeg nloc B kappa i
  else Ok B.

Definition psize_thread_m (kappa from_i : nat) (vx : list F) (nmax S l : nat) (B : mat Z) : res (mat Z) :=
  mfold (fun i B => psize_thread_step_m kappa vx (slice_beg nmax S l) (slice_len nmax S l) i B) (down from_i 0) B.

Definition psize_update_B_m (s : ist) (kappa from_i : nat) (vx : list F) : res ist :=
  let nmax := psize_nmax s from_i in
  guard ((from_i + 1 <? d) && (nmax <=? n))
    (let* B := mfold (fun l B => psize_thread_m kappa from_i vx nmax (cS c) l B) (seq 0 (cS c)) (iB s) in
     Ok (mkI B (iU s) (iS s))).

(** ** hsizereduce, 1137-1281 *)
Definition hs_pass_m (s : ist) (f : fst_ F) (vx : list F) (kappa start : nat)
  : res (ist * fst_ F * list F * bool) :=
  if ((cS c =? 1) || (Z.of_nat kappa - 1 <? cthr c)%Z) then
    let* (s1, f1, sd) := size_update_m s f kappa start in Ok (s1, f1, vx, sd)
  else
    let* (f1, vx1, sd) := size_update_R fp c f vx kappa start in
    let* s1 := psize_update_B_m s kappa start vx1 in
    Ok (s1, f1, vx1, sd).

Fixpoint hs_loop_m (fuel : nat) (s : ist) (f : fst_ F) (vx : list F) (prev_nonstop : bool)
         (kappa start : nat) : res (ist * fst_ F * bool) :=
  match fuel with
  | O => NoFuel
  | S fuel' =>
      let* (s1, f1, vx1, somedone) := hs_pass_m s f vx kappa start in
      if somedone then
        let f2 := set_kept (lupd (fkept f1) kappa false) f1 in
        let t := fmul fp (f01 fp) (nth kappa (fnB2 f2) fz) in
        let* f3 := householder_r fp c s1 f2 kappa in
        let nonstop := flt fp (nth kappa (fnB2 f3) fz) t in
        if (negb prev_nonstop && negb nonstop) then
          let theta := fmul fp (fsqrt fp (nth kappa (fnB2 f3) fz)) (feps fp) in
          let* bad := mu_anomaly fp c (fR f3) kappa theta (seq 0 kappa) in
          Ok (s1, f3, bad)
        else hs_loop_m fuel' s1 f3 vx1 nonstop kappa start
      else Ok (s1, f1, false)
  end.

Definition hsizereduce_m (fuel : nat) (s : ist) (f : fst_ F) (kappa fromk : nat) : res (ist * fst_ F * bool) :=
  let* f1 := householder_r fp c s f kappa in
  hs_loop_m fuel s f1 (repeat fz n) true kappa (hs_start kappa fromk).

(** ** seysenreduce, 295-500; [set_f(xz, x)] converts the member x (575, 604) *)
Definition seysen_update_step_m (kappa restdim : nat) (i : nat) (st : ist * fst_ F * list F * bool)
  : res (ist * fst_ F * list F * bool) :=
  let '(s, f, vx, done) := st in
  let xf := frnd fp (nth i vx fz) in
  let vx' := lupd vx i xf in
  if fnz fp xf then
    let '(lx, expo) := fgse fp xf in
    let nmax := nth i (iS s) 0 in
    guard ((nmax <=? n) && (restdim <=? n))
     (let* xz := setf_m lx expo (fx f) in
      let f2 := set_R (colop fz (rop fp lx expo xf) 0 restdim (fR f) kappa i) f in
      let* B' := mcolop (bop_m lx expo xz) 0 nmax (iB s) kappa i in
      let* U' := (if ctransf c then mcolop (bop_m lx expo xz) 0 (min d nmax) (iU s) kappa i else Ok (iU s)) in
      Ok (mkI B' U' (iS s), f2, vx', true))
  else Ok (s, f, vx', done).

Definition seysen_block_m (kappa indexdec bdim : nat) (st : ist * fst_ F * list F * list F * bool)
  : res (ist * fst_ F * list F * list F * bool) :=
  let '(s, f, vx, tmp, done) := st in
  let restdim := kappa - indexdec - bdim in
  let rows := block_rows kappa indexdec bdim in
  let* tmp1 := mfold (fun i t => let* r := gR fp c (fR f) i kappa in Ok (lupd t i r)) rows tmp in
  let* (vx1, tmp2) := mfold (seysen_coefs_step fp c (fR f) restdim) rows (vx, tmp1) in
  if ((cS c =? 1) || (Z.of_nat bdim <? cthr c)%Z) then
    let* (s1, f1, vx2, sd) := mfold (seysen_update_step_m kappa restdim) rows (s, f, vx1, false) in
    Ok (s1, f1, vx2, tmp2, done || sd)
  else Ok (s, f, vx1, tmp2, done).

Definition seysen_pass_m (s : ist) (f : fst_ F) (vx tmp : list F) (kappa : nat)
  : res (ist * fst_ F * list F * list F * bool) :=
  mfold (fun b st => seysen_block_m kappa (fst b) (snd b) st)
        (seysen_blocks (kappa + 1) 1 0 kappa) (s, f, vx, tmp, false).

Fixpoint seysen_loop_m (fuel : nat) (s : ist) (f : fst_ F) (vx tmp : list F) (ns0 ns1 : bool) (kappa : nat)
  : res (ist * fst_ F) :=
  match fuel with
  | O => NoFuel
  | S fuel' =>
      let* (s1, f1, vx1, tmp1, somedone) := seysen_pass_m s f vx tmp kappa in
      if somedone then
        let f2 := set_kept (lupd (fkept f1) kappa false) f1 in
        let t := fmul fp (f001 fp) (nth kappa (fnB2 f2) fz) in
        let* f3 := householder_r fp c s1 f2 kappa in
        let ns2 := flt fp (nth kappa (fnB2 f3) fz) t in
        if negb (ns0 || ns1 || ns2) then
          let* _ := gR fp c (fR f3) (kappa - 1) kappa in
          let* _ := gR fp c (fR f3) (kappa - 1) (kappa - 1) in
          Ok (s1, f3)
        else seysen_loop_m fuel' s1 f3 vx1 tmp1 ns1 ns2 kappa
      else Ok (s1, f1)
  end.

Definition seysenreduce_m (fuel : nat) (s : ist) (f : fst_ F) (kappa : nat) : res (ist * fst_ F * bool) :=
  let f0 := set_nmax (nth kappa (iS s) 0) f in
  let* f1 := householder_r fp c s f0 kappa in
  let* (s2, f2) := seysen_loop_m fuel s f1 (repeat fz kappa) (repeat fz kappa) true true kappa in
  Ok (s2, f2, false).

(** ** hlll, 38-275 *)
Definition reduce_m (fuel : nat) (s : ist) (f : fst_ F) (kappa : nat) : res (ist * fst_ F * bool) :=
  if (cseysen c <? 1)%Z then hsizereduce_m fuel s f kappa 0 else seysenreduce_m fuel s f kappa.

Fixpoint hlll_loop_m (fuel : nat) (delta : F) (verbose : bool) (s : ist) (f : fst_ F)
         (kappa : nat) (prevkappa : Z) (prevR : list F) (q : cnt) : res hres :=
  if negb ((kappa <? ckmax c) && (nblov q <? cnblov_max c)%Z) then Ok (0%Z, s, f, inc_depth verbose q)
  else
  match fuel with
  | O => NoFuel
  | S fuel' =>
      let* f1 := hlll_enter fp c s f kappa in
      let* (s2, f2, failed) := reduce_m fuel s f1 kappa in
      if failed then Ok ((-1)%Z, s2, f2, inc_depth verbose q)
      else
        let* (lovtest, newt) := lovasz fp c delta s2 f2 kappa in
        let q1 := inc_lov q in
        if fle fp lovtest newt then
          guard (kappa <? d)
          (let* f3 := householder_v fp c f2 kappa in
           let* rkk := gR fp c (fR f3) kappa kappa in
           if ((prevkappa =? Z.of_nat kappa + 1)%Z && flt fp (nth kappa prevR fz) (fabs fp rkk))
           then Ok ((-1)%Z, s2, f3, inc_depth verbose q1)
           else
             let desc1 := lupd (fdesc f3) kappa 0 in
             let f4 := set_desc (if kappa =? 1 then lupd desc1 0 0 else desc1) f3 in
             hlll_loop_m fuel' delta verbose s2 f4 (kappa + 1) (Z.of_nat kappa)
                       (lupd prevR kappa (fabs fp rkk)) q1)
        else
          guard (kappa <? d)
          (hlll_loop_m fuel' delta verbose (swap_i c s2 kappa) (swap_f fp f2 kappa)
                     (max (kappa - 1) 1) (Z.of_nat kappa) prevR (inc_swap q1))
  end.

End Model.

Definition hlll_m {F : Type} (fp : fpops F) (zt : zty) (fuel : nat) (delta : F) (verbose : bool) (junk : F) (L : lattice F)
  : res (Z * lattice F) :=
  let c := lcfg L in
  let q := lc L in
  let q0 := if verbose then mkC (nblov q) (nbswaps q) (vdepth q - 1) else q in
  let* (r, s, f, q') :=
     hlll_loop_m fp c zt fuel delta verbose (li L) (hlll_reset c (lf L)) 1 (-1)%Z
               (repeat junk (cd c)) q0 in
  Ok (r, mkL c s f q').
