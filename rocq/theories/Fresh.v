(** * hlll with a replaceable orthogonalisation step

    The functions below are the ones of Hlll.v with [householder_r] replaced by a
    parameter [hr]; [hlll_g_real] shows that the instance [hr := householder_r]
    is hlll itself.  Two other instances are used: [householder_nc], where the
    column is always marked "not kept" before the call (nothing is reused), and
    [householder_ref], a direct functional description of the R factor column. *)
From Coq Require Import ZArith Lia List Bool Arith.
From Verif Require Import Base Spec Mat FP Hlll.
Import ListNotations.

Section Gen.
Context {F : Type} (fp : fpops F) (c : cfg).
Notation n := (cn c).
Notation d := (cd c).
Notation fz := (fzero fp).
Variable hr : ist -> fst_ F -> nat -> res (fst_ F).

(** hlll.cc 1176-1275 *)
Fixpoint hs_loop_g (fuel : nat) (s : ist) (f : fst_ F) (vx : list F) (prev_nonstop : bool)
         (kappa start : nat) : res (ist * fst_ F * bool) :=
  match fuel with
  | O => NoFuel
  | S fuel' =>
      let* (s1, f1, vx1, somedone) := hs_pass fp c s f vx kappa start in
      if somedone then
        let f2 := set_kept (lupd (fkept f1) kappa false) f1 in
        let t := fmul fp (f01 fp) (nth kappa (fnB2 f2) fz) in
        let* f3 := hr s1 f2 kappa in
        let nonstop := flt fp (nth kappa (fnB2 f3) fz) t in
        if (negb prev_nonstop && negb nonstop) then
          let theta := fmul fp (fsqrt fp (nth kappa (fnB2 f3) fz)) (feps fp) in
          let* bad := mu_anomaly fp c (fR f3) kappa theta (seq 0 kappa) in
          Ok (s1, f3, bad)
        else hs_loop_g fuel' s1 f3 vx1 nonstop kappa start
      else Ok (s1, f1, false)
  end.

(** hlll.cc 1137-1281 *)
Definition hsizereduce_g (fuel : nat) (s : ist) (f : fst_ F) (kappa fromk : nat) : res (ist * fst_ F * bool) :=
  let* f1 := hr s f kappa in
  hs_loop_g fuel s f1 (repeat fz n) true kappa (hs_start kappa fromk).

(** hlll.cc 334-497 *)
Fixpoint seysen_loop_g (fuel : nat) (s : ist) (f : fst_ F) (vx tmp : list F) (ns0 ns1 : bool) (kappa : nat)
  : res (ist * fst_ F) :=
  match fuel with
  | O => NoFuel
  | S fuel' =>
      let* (s1, f1, vx1, tmp1, somedone) := seysen_pass fp c s f vx tmp kappa in
      if somedone then
        let f2 := set_kept (lupd (fkept f1) kappa false) f1 in
        let t := fmul fp (f001 fp) (nth kappa (fnB2 f2) fz) in
        let* f3 := hr s1 f2 kappa in
        let ns2 := flt fp (nth kappa (fnB2 f3) fz) t in
        if negb (ns0 || ns1 || ns2) then
          let* _ := gR fp c (fR f3) (kappa - 1) kappa in
          let* _ := gR fp c (fR f3) (kappa - 1) (kappa - 1) in
          Ok (s1, f3)
        else seysen_loop_g fuel' s1 f3 vx1 tmp1 ns1 ns2 kappa
      else Ok (s1, f1)
  end.

(** hlll.cc 295-500 *)
Definition seysenreduce_g (fuel : nat) (s : ist) (f : fst_ F) (kappa : nat) : res (ist * fst_ F * bool) :=
  let f0 := set_nmax (nth kappa (iS s) 0) f in
  let* f1 := hr s f0 kappa in
  let* (s2, f2) := seysen_loop_g fuel s f1 (repeat fz kappa) (repeat fz kappa) true true kappa in
  Ok (s2, f2, false).

(** hlll.cc 101-109 *)
Definition hlll_enter_g (s : ist) (f : fst_ F) (kappa : nat) : res (fst_ F) :=
  if kappa =? 1 then
    let f1 := set_kmin (map (fun z => Z.min z 0) (fkmin f)) f in
    let* f2 := hr s f1 0 in
    householder_v fp c f2 0
  else
    Ok (set_kmin (imap (fun i z => if kappa <? i then Z.min z (Z.of_nat kappa) else z) (fkmin f)) f).

(** hlll.cc 112-115 *)
Definition reduce_g (fuel : nat) (s : ist) (f : fst_ F) (kappa : nat) : res (ist * fst_ F * bool) :=
  if (cseysen c <? 1)%Z then hsizereduce_g fuel s f kappa 0 else seysenreduce_g fuel s f kappa.

(** hlll.cc 91-268 *)
Fixpoint hlll_loop_g (fuel : nat) (delta : F) (verbose : bool) (s : ist) (f : fst_ F)
         (kappa : nat) (prevkappa : Z) (prevR : list F) (q : cnt) : res (Z * ist * fst_ F * cnt) :=
  if negb ((kappa <? ckmax c) && (nblov q <? cnblov_max c)%Z) then Ok (0%Z, s, f, inc_depth verbose q)
  else
  match fuel with
  | O => NoFuel
  | S fuel' =>
      let* f1 := hlll_enter_g s f kappa in
      let* (s2, f2, failed) := reduce_g fuel s f1 kappa in
      if failed then Ok ((-1)%Z, s2, f2, inc_depth verbose q)
      else
        let* (lovtest, newt) := lovasz fp c delta s2 f2 kappa in
        let q1 := inc_lov q in
        if fle fp lovtest newt then
          guard (kappa <? d)
          (let* f3 := householder_v fp c f2 kappa in
           let* rkk := gR fp c (fR f3) kappa kappa in
           if ((prevkappa =? Z.of_nat kappa + 1)%Z && flt fp (nth kappa prevR fz) (fabs fp rkk))
           then Ok ((-1)%Z, s2, f3, inc_depth verbose q1)
           else
             let desc1 := lupd (fdesc f3) kappa 0 in
             let f4 := set_desc (if kappa =? 1 then lupd desc1 0 0 else desc1) f3 in
             hlll_loop_g fuel' delta verbose s2 f4 (kappa + 1) (Z.of_nat kappa)
                       (lupd prevR kappa (fabs fp rkk)) q1)
        else
          guard (kappa <? d)
          (hlll_loop_g fuel' delta verbose (swap_i c s2 kappa) (swap_f fp f2 kappa)
                     (max (kappa - 1) 1) (Z.of_nat kappa) prevR (inc_swap q1))
  end.

End Gen.

Section Same.
Context {F : Type} (fp : fpops F) (c : cfg).

Lemma hs_loop_g_real fuel : forall s f vx pn kappa start,
  hs_loop_g fp c (householder_r fp c) fuel s f vx pn kappa start = hs_loop fp c fuel s f vx pn kappa start.
Proof. reflexivity. Qed.

Lemma seysen_loop_g_real fuel : forall s f vx tmp n0 n1 kappa,
  seysen_loop_g fp c (householder_r fp c) fuel s f vx tmp n0 n1 kappa = seysen_loop fp c fuel s f vx tmp n0 n1 kappa.
Proof. reflexivity. Qed.

Lemma reduce_g_real fuel s f kappa : reduce_g fp c (householder_r fp c) fuel s f kappa = reduce fp c fuel s f kappa.
Proof. reflexivity. Qed.

Lemma hlll_loop_g_real fuel delta vb : forall s f kappa pk pR q,
  hlll_loop_g fp c (householder_r fp c) fuel delta vb s f kappa pk pR q =
  hlll_loop fp c fuel delta vb s f kappa pk pR q.
Proof. reflexivity. Qed.

End Same.

Section Obj.
Context {F : Type} (fp : fpops F).

(** hlll, with the orthogonalisation step [hr] *)
Definition hlll_g (hr : ist -> fst_ F -> nat -> res (fst_ F)) (fuel : nat) (delta : F) (verbose : bool)
  (junk : F) (L : lattice F) : res (Z * lattice F) :=
  let c := lcfg L in
  let q := lc L in
  let q0 := if verbose then mkC (nblov q) (nbswaps q) (vdepth q - 1) else q in
  let* (r, s, f, q') :=
     hlll_loop_g fp c hr fuel delta verbose (li L) (hlll_reset c (lf L)) 1 (-1)%Z
               (repeat junk (cd c)) q0 in
  Ok (r, mkL c s f q').

Lemma hlll_g_real fuel delta vb junk L :
  hlll_g (householder_r fp (lcfg L)) fuel delta vb junk L = hlll fp fuel delta vb junk L.
Proof. unfold hlll_g, hlll. now rewrite hlll_loop_g_real. Qed.

(** the column is recomputed from B, whatever was kept *)
Definition householder_nc (c : cfg) (s : ist) (f : fst_ F) (kappa : nat) : res (fst_ F) :=
  householder_r fp c s (set_kept (lupd (fkept f) kappa false) f) kappa.

(** hlll without any reuse of orthogonalisation data *)
Definition hlll_nocache (fuel : nat) (delta : F) (verbose : bool) (junk : F) (L : lattice F) :=
  hlll_g (householder_nc (lcfg L)) fuel delta verbose junk L.

(** ** Functional description of one column of the R factor *)

(** v_k w_k + ... + v_{m-1} w_{m-1}, accumulated as in scalarprod (mat.h 986) *)
Definition dotf (v w : nat -> F) (k m : nat) : F :=
  fold_left (fun acc i => faddmul fp acc (v i) (w i)) (seq (S k) (m - S k)) (fmul fp (v k) (w k)).

(** the column [b] after the reflectors 0..k-1 (columns of V), on rows < m *)
Fixpoint wch (V : nat -> nat -> F) (m : nat) (b : nat -> F) (k : nat) : nat -> F :=
  match k with
  | O => b
  | S k' =>
      let w := wch V m b k' in
      let p := dotf (fun i => V i k') w k' m in
      fun i => if (k' <=? i) && (i <? m) then fsubmul fp (w i) (V i k') p else w i
  end.

(** the coefficient of reflector k *)
Definition dotv (V : nat -> nat -> F) (m : nat) (b : nat -> F) (k : nat) : F :=
  dotf (fun i => V i k) (wch V m b k) k m.

(** column j of B converted *)
Definition bval (s : ist) (j : nat) : nat -> F := fun i => fset_z fp (mget 0%Z (iB s) i j).

Definition Vf (f : fst_ F) : nat -> nat -> F := fun i k => mget (fzero fp) (fV f) i k.

Definition householder_ref (s : ist) (f : fst_ F) (kappa : nat) : fst_ F :=
  let m := nth kappa (iS s) 0 in
  let b := bval s kappa in
  set_nmax m
    (set_nB2 (lupd (fnB2 f) kappa (dotf b b 0 m))
      (set_R (lupd (fR f) kappa (splice 0 (map (wch (Vf f) m b kappa) (seq 0 m)) (col (fR f) kappa))) f)).

Definition hr_ref (s : ist) (f : fst_ F) (kappa : nat) : res (fst_ F) := Ok (householder_ref s f kappa).

End Obj.
