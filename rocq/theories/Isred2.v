(** * What Lattice::isreduced prints (src/hlll.cc 2275-2510; line numbers refer to that file)

    [Hlll2.isreduced] models the verdict; here are the printed estimates as well. *)
From Coq Require Import ZArith Lia List Bool Arith.
From Verif Require Import Base Spec Mat FP Hlll Hlll2.
Import ListNotations.

(** one printed report; theta is a constant of the code *)
Record report (F : Type) := mkRep { rp_delta : F; rp_norm : F; rp_vol : F; rp_eta : F; rp_alpha : F }.
Arguments mkRep {F}. Arguments rp_delta {F}. Arguments rp_norm {F}. Arguments rp_vol {F}. Arguments rp_eta {F}. Arguments rp_alpha {F}.

Section Isr.
Context {F : Type} (fp : fpops F) (c : cfg).
Notation n := (cn c).
Notation d := (cd c).

(** the quotient (R(k,k+1)^2 + R(k+1,k+1)^2) / R(k,k)^2, 2305-2310 and 2315-2319 *)
Definition isr_quot (R : mat F) (k : nat) : res F :=
  let* a := gR fp c R k (k + 1) in
  let* b := gR fp c R (k + 1) (k + 1) in
  let* e := gR fp c R k k in
  Ok (fdiv fp (fadd fp (fmul fp a a) (fmul fp b b)) (fmul fp e e)).

(** delta, 2305-2322 and (second report) 2421-2439 *)
Definition isr_delta (R : mat F) : res F :=
  let* q := isr_quot R 0 in
  let d0 := if fle fp (fone fp) q then fone fp else q in
  mfold (fun k dl => let* s := isr_quot R k in Ok (if flt fp s dl then s else dl)) (seq 1 (d - 2)) d0.

(** ||b_1||, 2331-2333: the norm is computed on the integers *)
Definition isr_norm (B : mat Z) : F :=
  fsqrt fp (fset_z fp (fold_left (fun s i => (s + nth i (col B 0) 0 * nth i (col B 0) 0)%Z) (seq 0 n) 0%Z)).

(** Vol(L), 2340-2344 *)
Definition isr_vol (R : mat F) : res F :=
  let* r0 := gR fp c R 0 0 in
  let* s := mfold (fun k s => let* r := gR fp c R k k in Ok (fmul fp s r)) (seq 1 (d - 1)) r0 in
  Ok (fabs fp s).

(** eta, 2353-2373: note that theta multiplies R(j,j) with its sign *)
Definition isr_eta (theta : F) (R : mat F) : res F :=
  mfold (fun i e => mfold (fun j e =>
      let* rij := gR fp c R i j in
      let* rjj := gR fp c R j j in
      let v := fsub fp (fabs fp rij) (fmul fp theta rjj) in
      if flt fp (fzero fp) v then
        let* rii := gR fp c R i i in
        let v2 := fabs fp (fdiv fp v rii) in
        Ok (if flt fp e v2 then v2 else e)
      else Ok e) (seq (i + 1) (d - (i + 1))) e) (seq 0 (d - 1)) (fzero fp).

(** eta of the second report, 2466-2479: the quotient keeps the sign of R(i,i) *)
Definition isr_eta2 (theta : F) (R : mat F) : res F :=
  mfold (fun i e => mfold (fun j e =>
      let* rij := gR fp c R i j in
      let* rjj := gR fp c R j j in
      let* rii := gR fp c R i i in
      let v := fdiv fp (fabs fp (fsub fp (fabs fp rij) (fmul fp theta rjj))) rii in
      Ok (if flt fp e v then v else e)) (seq (i + 1) (d - (i + 1))) e) (seq 0 (d - 1)) (fzero fp).

(** alpha, 2375-2392 and 2481-2498 *)
Definition isr_alpha (delta eta theta : F) : F :=
  let a1 := fmul fp (fadd fp (fmul fp theta theta) (fone fp)) delta in
  let a2 := fsqrt fp (fsub fp a1 (fmul fp eta eta)) in
  fdiv fp (fadd fp (fmul fp eta theta) a2) (fsub fp delta (fmul fp eta eta)).

Definition isr_report (eta : F -> mat F -> res F) (theta : F) (B : mat Z) (R : mat F) : res (report F) :=
  let* dl := isr_delta R in
  let nb := isr_norm B in
  let* v := isr_vol R in
  let* e := eta theta R in
  Ok (mkRep dl nb v e (isr_alpha dl e theta)).

End Isr.

(** the call with its output: the first report, the status, and the second report when the status is -1.
    [th1] = 0.00001 (2347), [th2] = 0.001 (2462) in the type of the object *)
Definition isreduced_out {F} (fp : fpops F) (th1 th2 : F) (fuel : nat) (delta : F) (junk : F) (J1 J2 : junk_t (F := F))
  (L : lattice F) : res (report F * Z * option (report F) * lattice F) :=
  let c := lcfg L in
  let f1 := setprec fp c J1 (lf L) in
  let* f2 := householder fp c (iB (li L)) f1 in
  let* rep := isr_report fp c (isr_eta fp c) th1 (iB (li L)) (fR f2) in
  let L2 := mkL c (li L) f2 (mkC 0 (nbswaps (lc L)) (vdepth (lc L))) in
  let* (r, L3) := hlll fp fuel delta false junk L2 in
  if (nblov (lc L3) =? Z.of_nat (cd c) - 1)%Z
  then Ok (rep, 0%Z, None, mkL c (li L3) (setprec fp c J2 (lf L3)) (lc L3))
  else
    let* rep2 := isr_report fp c (isr_eta2 fp c) th2 (iB (li L3)) (fR (lf L3)) in
    Ok (rep, (-1)%Z, Some rep2, mkL c (li L3) (setprec fp c J2 (lf L3)) (lc L3)).
