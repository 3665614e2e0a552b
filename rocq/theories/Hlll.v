(** * Model of [hplll::Lattice] (src/hlll.h, src/hlll.cc), ZT = mpz_t

    One Gallina definition per member function; line numbers refer to
    /repo/src/hlll.cc unless another file is given. *)
From Coq Require Import ZArith Lia List Bool Arith.
From Verif Require Import Base Spec Mat FP.
Import ListNotations.

(** ** Object state *)

(** Members that hlll never changes: hlll.h 40-60 (n, d, transf, kappa_max,
    nblov_max), 100-101 (num_S, par_reduce_threshold), 133-135 (seysen_flag,
    fast_long_flag). *)
Record cfg := mkCfg {
  cn : nat; cd : nat;
  ctransf : bool;
  ckmax : nat;          (* kappa_max *)
  cnblov_max : Z;       (* nblov_max, unsigned int *)
  cseysen : Z;          (* seysen_flag *)
  clong : bool;         (* fast_long_flag == 1 *)
  cS : nat;             (* num_S *)
  cthr : Z              (* par_reduce_threshold *)
}.

(** Integer part: B, U and [structure].  [iS] stores [structure[j] + 1] (so the
    value -1 of an all-zero column is 0): every use of structure in the class is
    through [structure[.] + 1] or a comparison of two of its entries. *)
Record ist := mkI { iB : mat Z; iU : mat Z; iS : list nat }.

(** Floating-point and book-keeping part (hlll.h 62-87). *)
Record fst_ (F : Type) := mkF {
  fR : mat F; fRk : mat F; fV : mat F; fBfp : mat F; fVR : mat F;
  fnB2 : list F;          (* normB2 *)
  fx : F;                 (* x *)
  ftoR : list F;          (* toR *)
  fnmax : nat;            (* nmaxkappa *)
  fkept : list bool;      (* col_kept, d+1 entries *)
  fkmin : list Z;         (* kappamin *)
  fdesc : list nat        (* descendu *)
}.
Arguments mkF {F}. Arguments fR {F}. Arguments fRk {F}. Arguments fV {F}.
Arguments fBfp {F}. Arguments fVR {F}. Arguments fnB2 {F}. Arguments fx {F}.
Arguments ftoR {F}. Arguments fnmax {F}. Arguments fkept {F}. Arguments fkmin {F}.
Arguments fdesc {F}.

(** Counters nblov, nbswaps and the global verboseDepth (defs.h 57). *)
Record cnt := mkC { nblov : Z; nbswaps : Z; vdepth : Z }.

(** The whole object. *)
Record lattice (F : Type) := mkL { lcfg : cfg; li : ist; lf : fst_ F; lc : cnt }.
Arguments mkL {F}. Arguments lcfg {F}. Arguments li {F}. Arguments lf {F}. Arguments lc {F}.

Section Setters.
  Context {F : Type}.
  Implicit Type f : fst_ F.
  Definition set_R v f := mkF v (fRk f) (fV f) (fBfp f) (fVR f) (fnB2 f) (fx f) (ftoR f) (fnmax f) (fkept f) (fkmin f) (fdesc f).
  Definition set_Rk v f := mkF (fR f) v (fV f) (fBfp f) (fVR f) (fnB2 f) (fx f) (ftoR f) (fnmax f) (fkept f) (fkmin f) (fdesc f).
  Definition set_V v f := mkF (fR f) (fRk f) v (fBfp f) (fVR f) (fnB2 f) (fx f) (ftoR f) (fnmax f) (fkept f) (fkmin f) (fdesc f).
  Definition set_Bfp v f := mkF (fR f) (fRk f) (fV f) v (fVR f) (fnB2 f) (fx f) (ftoR f) (fnmax f) (fkept f) (fkmin f) (fdesc f).
  Definition set_VR v f := mkF (fR f) (fRk f) (fV f) (fBfp f) v (fnB2 f) (fx f) (ftoR f) (fnmax f) (fkept f) (fkmin f) (fdesc f).
  Definition set_nB2 v f := mkF (fR f) (fRk f) (fV f) (fBfp f) (fVR f) v (fx f) (ftoR f) (fnmax f) (fkept f) (fkmin f) (fdesc f).
  Definition set_x v f := mkF (fR f) (fRk f) (fV f) (fBfp f) (fVR f) (fnB2 f) v (ftoR f) (fnmax f) (fkept f) (fkmin f) (fdesc f).
  Definition set_toR v f := mkF (fR f) (fRk f) (fV f) (fBfp f) (fVR f) (fnB2 f) (fx f) v (fnmax f) (fkept f) (fkmin f) (fdesc f).
  Definition set_nmax v f := mkF (fR f) (fRk f) (fV f) (fBfp f) (fVR f) (fnB2 f) (fx f) (ftoR f) v (fkept f) (fkmin f) (fdesc f).
  Definition set_kept v f := mkF (fR f) (fRk f) (fV f) (fBfp f) (fVR f) (fnB2 f) (fx f) (ftoR f) (fnmax f) v (fkmin f) (fdesc f).
  Definition set_kmin v f := mkF (fR f) (fRk f) (fV f) (fBfp f) (fVR f) (fnB2 f) (fx f) (ftoR f) (fnmax f) (fkept f) v (fdesc f).
  Definition set_desc v f := mkF (fR f) (fRk f) (fV f) (fBfp f) (fVR f) (fnB2 f) (fx f) (ftoR f) (fnmax f) (fkept f) (fkmin f) v.
End Setters.

Section Model.
Context {F : Type} (fp : fpops F) (c : cfg).
Notation n := (cn c).
Notation d := (cd c).
Notation fz := (fzero fp).

(** ** Guarded accesses
    R, Rkept, V, Bfp, B are n x d, VR is d x d, U is d x d (or absent),
    normB2/structure/kappamin/descendu have d entries, toR n, col_kept d+1
    (init 1991-2034, constructor 2038-2080). *)
Definition gR (M : mat F) (i j : nat) : res F := guard ((i <? n) && (j <? d)) (Ok (mget fz M i j)).
Definition gVR (M : mat F) (i j : nat) : res F := guard ((i <? d) && (j <? d)) (Ok (mget fz M i j)).
(** pointer to entry (k,j) of an n-row matrix, [getcol(j,k)], mat.h 165; one past the end allowed *)
Definition gcol (M : mat F) (j k : nat) : res (list F) :=
  guard ((j <? d) && (k <=? n)) (Ok (skipn k (col M j))).

(** ** Vector kernels, mat.h 964-1000 *)

(** the tail of the accumulation loops: [for i=1..] acc.addmul(v[i],w[i]) *)
Fixpoint sp_loop (acc : F) (v w : list F) (k : nat) : F :=
  match k with
  | O => acc
  | S k' => match v, w with
            | a :: v', b :: w' => sp_loop (faddmul fp acc a b) v' w' k'
            | _, _ => acc
            end
  end.

(** scalarprod, mat.h 986-993: reads v[0], w[0] even when n <= 0 *)
Definition scalarprod (v w : list F) (l : nat) : res F :=
  match v, w with
  | a :: v', b :: w' =>
      guard ((l <=? length v) && (l <=? length w)) (Ok (sp_loop (fmul fp a b) v' w' (l - 1)))
  | _, _ => UB
  end.

(** fp_norm_sq, mat.h 977-983 *)
Definition fp_norm_sq (v : list F) (l : nat) : res F := scalarprod v v l.
(** fp_norm, mat.h 964-973 *)
Definition fp_norm (v : list F) (l : nat) : res F :=
  let* s := fp_norm_sq v l in Ok (fsqrt fp s).

(** fmasub(j,k,w,z,a,l), mat.h 459-471: col j from row k := w - z*a *)
Definition fmasub (M : mat F) (j k : nat) (w z : list F) (a : F) (l : nat) : res (mat F) :=
  guard ((j <? d) && (k + l <=? n) && (l <=? length w) && (l <=? length z))
    (Ok (lupd M j (splice k (map (fun i => fsubmul fp (nth i w fz) (nth i z fz) a) (seq 0 l)) (col M j)))).

(** ** householder_r, 1650-1800 *)

(** one reflector: [scalarprod(VR(k,kappa),...)] when [dot k], then
    [Rkept.fmasub(k,k,...)]; the source is Bfp's column for k = 0 and Rkept's
    column k-1 afterwards; length = nmaxkappa - k (it starts at nmaxkappa and is
    decremented before each k >= 1) *)
Definition hr_step (kappa nmax : nat) (dot : nat -> bool) (k : nat) (f : fst_ F) : res (fst_ F) :=
  let len := nmax - k in
  let* v := gcol (fV f) k k in
  let* w := (if k =? 0 then gcol (fBfp f) kappa 0 else gcol (fRk f) (k - 1) k) in
  let* f1 := (if dot k then
                let* p := scalarprod v w len in
                guard ((k <? d) && (kappa <? d)) (Ok (set_VR (mset (fVR f) k kappa p) f))
              else Ok f) in
  let* a := gVR (fVR f1) k kappa in
  let* rk := fmasub (fRk f1) k k w v a len in
  Ok (set_Rk rk f1).

(** k = 0 then [for (k = 1; (k < kappa) && (k < nmaxkappa); k++)] *)
Definition hr_loop (kappa nmax : nat) (dot : nat -> bool) (f : fst_ F) : res (fst_ F) :=
  mfold (hr_step kappa nmax dot) (0 :: seq 1 (min kappa nmax - 1)) f.

(** the final copy Rkept -> toR -> R(.,kappa), 1775-1792 *)
Definition hr_final (kappa nmax : nat) (f : fst_ F) : res (fst_ F) :=
  guard ((kappa <? d) && (nmax <=? n))
   (let t := map (fun i => if (kappa <? nmax) && (kappa <=? i)
                           then mget fz (fRk f) i (kappa - 1)
                           else mget fz (fRk f) i i) (seq 0 nmax) in
    let f1 := set_toR (splice 0 t (ftoR f)) f in
    Ok (set_R (lupd (fR f1) kappa (splice 0 t (col (fR f1) kappa))) f1)).

(** conversion of column kappa of B, [Bfp.setcol(kappa, B.getcol(kappa), 0, nmaxkappa)], mat.h 188-193 *)
Definition setcol_z (M : mat F) (kappa : nat) (b : list Z) (nmax : nat) : mat F :=
  lupd M kappa (splice 0 (map (fun i => fset_z fp (nth i b 0%Z)) (seq 0 nmax)) (col M kappa)).

Definition householder_r (s : ist) (f0 : fst_ F) (kappa : nat) : res (fst_ F) :=
  guard (kappa <? d)
  (let nmax := nth kappa (iS s) 0 in
   let f := set_nmax nmax f0 in
   guard (nmax <=? n)
   (let* f' :=
     (if kappa =? 0 then
        if nth kappa (fkept f) false then
          (* 1663-1667 *)
          Ok (set_R (lupd (fR f) kappa (splice 0 (firstn nmax (col (fBfp f) kappa)) (col (fR f) kappa))) f)
        else
          (* 1668-1676 *)
          let f1 := set_kept (lupd (fkept f) kappa true) f in
          let f2 := set_Bfp (setcol_z (fBfp f1) kappa (col (iB s) kappa) nmax) f1 in
          let f3 := set_R (lupd (fR f2) kappa (splice 0 (firstn nmax (col (fBfp f2) kappa)) (col (fR f2) kappa))) f2 in
          let* q := (let* r := gcol (fR f3) kappa 0 in fp_norm_sq r nmax) in
          Ok (set_nB2 (lupd (fnB2 f3) kappa q) f3)
      else
        let* f4 :=
          (if nth kappa (fkept f) false then
             (* 1700-1742 *)
             if ((nth kappa (fdesc f) 0 <? 1) || (kappa <=? nth kappa (fdesc f) 0)) then
               let km := nth kappa (fkmin f) 0%Z in
               if (km <? 0)%Z then UB (* loop from a negative k, index -1 of VR *)
               else hr_loop kappa nmax (fun k => (km <=? Z.of_nat k)%Z) f
             else Ok f
           else
             (* 1748-1772 *)
             let f1 := set_kept (lupd (fkept f) kappa true) f in
             let f2 := set_Bfp (setcol_z (fBfp f1) kappa (col (iB s) kappa) nmax) f1 in
             let* q := (let* b := gcol (fBfp f2) kappa 0 in fp_norm_sq b nmax) in
             let f3 := set_nB2 (lupd (fnB2 f2) kappa q) f2 in
             hr_loop kappa nmax (fun _ => true) f3) in
        hr_final kappa nmax f4) in
   Ok (set_kmin (lupd (fkmin f') kappa (Z.of_nat kappa)) f'))).

(** ** householder_v, 1811-1856 *)
Definition householder_v (f : fst_ F) (kappa : nat) : res (fst_ F) :=
  let nmax := fnmax f in
  let* w0 := gR (fR f) kappa kappa in
  let* rc := gcol (fR f) kappa kappa in
  guard (nmax <=? n)
  (let* nr := fp_norm rc (nmax - kappa) in
   let '(s, rkk) := if fle fp fz w0 then (nr, fneg fp nr) else (fneg fp nr, nr) in
   let f1 := set_R (mset (fR f) kappa kappa rkk) f in
   let w := fadd fp w0 s in
   let s2 := fsqrt fp (fmul fp s w) in
   let newcol := map (fun i => if i =? kappa then fdiv fp w s2
                               else if nmax <=? i then fz
                               else if kappa <? i then fdiv fp (mget fz (fR f1) i kappa) s2
                               else mget fz (fV f1) i kappa) (seq 0 n) in
   Ok (set_V (lupd (fV f1) kappa newcol) f1)).

(** ** Column updates for a coefficient x, the case tree of size_update
    (1308-1405) and seysen_update (536-618), size_update_R (1440-1490),
    psize_update_B (1560-1630) *)

(** what is done to a column of R: subcol / addcol / submulcol (mat.h 320-375) *)
Definition rop (lx expo : Z) (x : F) (v w : F) : F :=
  if (expo =? 0)%Z then
    if (lx =? 1)%Z then fsub fp v w
    else if (lx =? -1)%Z then fadd fp v w
    else fsubmul fp v x w
  else fsubmul fp v x w.

(** what is done to a column of B or U: subcol / addcol / addmulcol_si(-lx) /
    addmulcol_si_2exp(-lx,expo) / submulcol(xz), mat.h 320-440; mul_2si is
    [Z.shiftl] (fplll: mpz_mul_2exp, mpz_fdiv_q_2exp for a negative exponent) *)
Definition bop (lx expo xz : Z) (v w : Z) : Z :=
  (if (expo =? 0)%Z then
    if (lx =? 1)%Z then v - w
    else if (lx =? -1)%Z then v + w
    else if clong c then v + w * (- lx)
    else v - xz * w
  else if clong c then v + Z.shiftl (w * (- lx)) expo
  else v - xz * w)%Z.

(** ** size_update, 1288-1412 *)
Definition size_update_step (kappa i : nat) (st : ist * fst_ F * bool) : res (ist * fst_ F * bool) :=
  let '(s, f, done) := st in
  let* rik := gR (fR f) i kappa in
  let* rii := gR (fR f) i i in
  let x := frnd fp (fdiv fp rik rii) in
  let f1 := set_x x f in
  if fnz fp x then
    let '(lx, expo) := fgse fp x in
    let nmax := nth i (iS s) 0 in
    let xz := fset_f fp x in
    guard (nmax <=? n)
     (let f2 := set_R (colop fz (rop lx expo x) 0 (i + 1) (fR f1) kappa i) f1 in
      let B' := colop 0%Z (bop lx expo xz) 0 nmax (iB s) kappa i in
      let U' := if ctransf c then colop 0%Z (bop lx expo xz) 0 (min d nmax) (iU s) kappa i else iU s in
      Ok (mkI B' U' (iS s), f2, true))
  else Ok (s, f1, done).

Definition size_update (s : ist) (f : fst_ F) (kappa from_i : nat) : res (ist * fst_ F * bool) :=
  mfold (size_update_step kappa) (down from_i 0) (s, f, false).

(** ** size_update_R, 1424-1495: same on R only, the coefficients are kept in vectx *)
Definition size_update_R_step (kappa i : nat) (st : fst_ F * list F * bool) : res (fst_ F * list F * bool) :=
  let '(f, vx, done) := st in
  let* rik := gR (fR f) i kappa in
  let* rii := gR (fR f) i i in
  let x := frnd fp (fdiv fp rik rii) in
  let f1 := set_x x f in
  let vx' := lupd vx i x in
  if fnz fp x then
    let '(lx, expo) := fgse fp x in
    Ok (set_R (colop fz (rop lx expo x) 0 (i + 1) (fR f1) kappa i) f1, vx', true)
  else Ok (f1, vx', done).

Definition size_update_R (f : fst_ F) (vx : list F) (kappa from_i : nat) : res (fst_ F * list F * bool) :=
  mfold (size_update_R_step kappa) (down from_i 0) (f, vx, false).

(** ** psize_update_B, 1505-1640.  Here the threads run one after the other; Par.v
    shows that every interleaving gives the same matrix. *)

(** row slice of thread l among S on nmax rows, 1538-1550 *)
Definition slice_len (nmax S l : nat) : nat :=
  nmax / S + (if l + 1 <=? nmax mod S then 1 else 0).
Definition slice_beg (nmax S l : nat) : nat :=
  (nmax / S) * l + (if l + 1 <=? nmax mod S then l else nmax mod S).

(** 1555-1632: the column loop of one thread *)
Definition psize_thread_step (kappa : nat) (vx : list F) (ibeg nloc i : nat) (B : mat Z) : mat Z :=
  let xf := nth i vx fz in
  if fnz fp xf then
    let '(lx, expo) := fgse fp xf in
    colop 0%Z (bop lx expo (fset_f fp xf)) ibeg nloc B kappa i
  else B.

Definition psize_thread (kappa from_i : nat) (vx : list F) (nmax S l : nat) (B : mat Z) : mat Z :=
  fold_left (fun B i => psize_thread_step kappa vx (slice_beg nmax S l) (slice_len nmax S l) i B)
            (down from_i 0) B.

(** 1510-1517 *)
Definition psize_nmax (s : ist) (from_i : nat) : nat :=
  fold_left (fun m i => max m (nth i (iS s) 0)) (down (from_i + 1) 0) (nth from_i (iS s) 0).

Definition psize_update_B (s : ist) (kappa from_i : nat) (vx : list F) : res ist :=
  let nmax := psize_nmax s from_i in
  guard ((from_i + 1 <? d) && (nmax <=? n))
    (Ok (mkI (fold_left (fun B l => psize_thread kappa from_i vx nmax (cS c) l B) (seq 0 (cS c)) (iB s))
             (iU s) (iS s))).

(** ** hsizereduce, 1137-1281 *)

(** the size-reduction test 1228-1243: true if some i < kappa fails *)
Fixpoint mu_anomaly (R : mat F) (kappa : nat) (theta : F) (is : list nat) : res bool :=
  match is with
  | [] => Ok false
  | i :: is' =>
      let* rik := gR R i kappa in
      let* rii := gR R i i in
      let mu := fabs fp (fdiv fp rik rii) in
      let mt := fadd fp (fabs fp (fdiv fp theta rii)) (fone fp) in
      if fcmp1 fp mu mt then Ok true else mu_anomaly R kappa theta is'
  end.

(** one pass: sequential or parallel branch, 1184-1196 *)
Definition hs_pass (s : ist) (f : fst_ F) (vx : list F) (kappa start : nat)
  : res (ist * fst_ F * list F * bool) :=
  if ((cS c =? 1) || (Z.of_nat kappa - 1 <? cthr c)%Z) then
    let* (s1, f1, sd) := size_update s f kappa start in Ok (s1, f1, vx, sd)
  else
    let* (f1, vx1, sd) := size_update_R f vx kappa start in
    let* s1 := psize_update_B s kappa start vx1 in
    Ok (s1, f1, vx1, sd).

(** the while loop 1176-1275; the boolean is true when -1 is returned *)
Fixpoint hs_loop (fuel : nat) (s : ist) (f : fst_ F) (vx : list F) (prev_nonstop : bool)
         (kappa start : nat) : res (ist * fst_ F * bool) :=
  match fuel with
  | O => NoFuel
  | S fuel' =>
      let* (s1, f1, vx1, somedone) := hs_pass s f vx kappa start in
      if somedone then
        let f2 := set_kept (lupd (fkept f1) kappa false) f1 in
        let t := fmul fp (f01 fp) (nth kappa (fnB2 f2) fz) in
        let* f3 := householder_r s1 f2 kappa in
        let nonstop := flt fp (nth kappa (fnB2 f3) fz) t in
        if (negb prev_nonstop && negb nonstop) then
          let theta := fmul fp (fsqrt fp (nth kappa (fnB2 f3) fz)) (feps fp) in
          let* bad := mu_anomaly (fR f3) kappa theta (seq 0 kappa) in
          Ok (s1, f3, bad)
        else hs_loop fuel' s1 f3 vx1 nonstop kappa start
      else Ok (s1, f1, false)
  end.

(** startposition, 1162-1167 *)
Definition hs_start (kappa fromk : nat) : nat :=
  if 0 <? fromk then min (kappa - 1) fromk else kappa - 1.

Definition hsizereduce (fuel : nat) (s : ist) (f : fst_ F) (kappa fromk : nat) : res (ist * fst_ F * bool) :=
  let* f1 := householder_r s f kappa in
  hs_loop fuel s f1 (repeat fz n) true kappa (hs_start kappa fromk).

(** ** seysenreduce, 295-500 *)

(** seysen_update, 510-626; note [set_f(xz, x)] at 575/604 converts the member
    [x], not the coefficient [xf] *)
Definition seysen_update_step (kappa restdim : nat) (i : nat) (st : ist * fst_ F * list F * bool)
  : res (ist * fst_ F * list F * bool) :=
  let '(s, f, vx, done) := st in
  let xf := frnd fp (nth i vx fz) in
  let vx' := lupd vx i xf in
  if fnz fp xf then
    let '(lx, expo) := fgse fp xf in
    let nmax := nth i (iS s) 0 in
    let xz := fset_f fp (fx f) in
    guard ((nmax <=? n) && (restdim <=? n))
     (let f2 := set_R (colop fz (rop lx expo xf) 0 restdim (fR f) kappa i) f in
      let B' := colop 0%Z (bop lx expo xz) 0 nmax (iB s) kappa i in
      let U' := if ctransf c then colop 0%Z (bop lx expo xz) 0 (min d nmax) (iU s) kappa i else iU s in
      Ok (mkI B' U' (iS s), f2, vx', true))
  else Ok (s, f, vx', done).

(** computation of the real coefficients of one block, 362-380 *)
Definition seysen_coefs_step (R : mat F) (restdim : nat) (i : nat) (st : list F * list F)
  : res (list F * list F) :=
  let '(vx, tmp) := st in
  let* rii := gR R i i in
  let xi := fdiv fp (nth i tmp fz) rii in
  guard ((i <? n) && (i <? d))
  (Ok (lupd vx i xi,
       fold_left (fun t k => lupd t k (fsubmul fp (nth k t fz) (mget fz R k i) xi))
                 (seq restdim (i - restdim)) tmp)).

(** rows of the block: [for (i = kappa-1-indexdec; i >= restdim; i--)] with
    restdim = kappa - indexdec - bdim *)
Definition block_rows (kappa indexdec bdim : nat) : list nat :=
  rev (seq (kappa - indexdec - bdim) bdim).

(** one value of ld, 345-405 *)
Definition seysen_block (kappa indexdec bdim : nat) (st : ist * fst_ F * list F * list F * bool)
  : res (ist * fst_ F * list F * list F * bool) :=
  let '(s, f, vx, tmp, done) := st in
  let restdim := kappa - indexdec - bdim in
  let rows := block_rows kappa indexdec bdim in
  let* tmp1 := mfold (fun i t => let* r := gR (fR f) i kappa in Ok (lupd t i r)) rows tmp in
  let* (vx1, tmp2) := mfold (seysen_coefs_step (fR f) restdim) rows (vx, tmp1) in
  if ((cS c =? 1) || (Z.of_nat bdim <? cthr c)%Z) then
    let* (s1, f1, vx2, sd) := mfold (seysen_update_step kappa restdim) rows (s, f, vx1, false) in
    Ok (s1, f1, vx2, tmp2, done || sd)
  else Ok (s, f, vx1, tmp2, done).

(** [while (ld <= kappa)], 341-410: (indexdec, bdim) of the successive blocks.
    [fuel] >= number of binary digits; kappa is always enough. *)
Fixpoint seysen_blocks (fuel ld indexdec kappa : nat) : list (nat * nat) :=
  match fuel with
  | O => []
  | S fuel' =>
      if ld <=? kappa then
        let bdim := if (kappa / ld) mod 2 =? 0 then 0 else ld in
        (indexdec, bdim) :: seysen_blocks fuel' (ld * 2) (indexdec + bdim) kappa
      else []
  end.

Definition seysen_pass (s : ist) (f : fst_ F) (vx tmp : list F) (kappa : nat)
  : res (ist * fst_ F * list F * list F * bool) :=
  mfold (fun b st => seysen_block kappa (fst b) (snd b) st)
        (seysen_blocks (kappa + 1) 1 0 kappa) (s, f, vx, tmp, false).

(** the while loop 334-497; ns0, ns1 are nonstop[0], nonstop[1] (K = 3); the
    reduction test of 440-480 only prints (its [return -1] is commented out) but
    reads R(kappa-1,kappa) and R(kappa-1,kappa-1) *)
Fixpoint seysen_loop (fuel : nat) (s : ist) (f : fst_ F) (vx tmp : list F) (ns0 ns1 : bool) (kappa : nat)
  : res (ist * fst_ F) :=
  match fuel with
  | O => NoFuel
  | S fuel' =>
      let* (s1, f1, vx1, tmp1, somedone) := seysen_pass s f vx tmp kappa in
      if somedone then
        let f2 := set_kept (lupd (fkept f1) kappa false) f1 in
        let t := fmul fp (f001 fp) (nth kappa (fnB2 f2) fz) in
        let* f3 := householder_r s1 f2 kappa in
        let ns2 := flt fp (nth kappa (fnB2 f3) fz) t in
        if negb (ns0 || ns1 || ns2) then
          let* _ := gR (fR f3) (kappa - 1) kappa in
          let* _ := gR (fR f3) (kappa - 1) (kappa - 1) in
          Ok (s1, f3)
        else seysen_loop fuel' s1 f3 vx1 tmp1 ns1 ns2 kappa
      else Ok (s1, f1)
  end.

Definition seysenreduce (fuel : nat) (s : ist) (f : fst_ F) (kappa : nat) : res (ist * fst_ F * bool) :=
  let f0 := set_nmax (nth kappa (iS s) 0) f in
  let* f1 := householder_r s f0 kappa in
  let* (s2, f2) := seysen_loop fuel s f1 (repeat fz kappa) (repeat fz kappa) true true kappa in
  Ok (s2, f2, false).

(** ** hlll, 38-275 *)

(** the Lovasz quantities, 121-137: (lovtest, newt) *)
Definition lovasz (delta : F) (s : ist) (f : fst_ F) (kappa : nat) : res (F * F) :=
  let* rp := gR (fR f) (kappa - 1) (kappa - 1) in
  let lovtest := fmul fp delta (fmul fp rp rp) in
  let* rc := gcol (fR f) kappa kappa in
  let* s0 := fp_norm rc (nth kappa (iS s) 0 - kappa) in
  let s1 := fmul fp s0 s0 in
  let* r2 := gR (fR f) (kappa - 1) kappa in
  Ok (lovtest, fadd fp s1 (fmul fp r2 r2)).

(** head of the loop body, 101-109 *)
Definition hlll_enter (s : ist) (f : fst_ F) (kappa : nat) : res (fst_ F) :=
  if kappa =? 1 then
    let f1 := set_kmin (map (fun z => Z.min z 0) (fkmin f)) f in
    let* f2 := householder_r s f1 0 in
    householder_v f2 0
  else
    Ok (set_kmin (imap (fun i z => if kappa <? i then Z.min z (Z.of_nat kappa) else z) (fkmin f)) f).

(** the DOWN branch, 214-262, on the integer part: colswap B, U, structure *)
Definition swap_i (s : ist) (kappa : nat) : ist :=
  mkI (colswap (iB s) (kappa - 1) kappa)
      (if ctransf c then colswap (iU s) (kappa - 1) kappa else iU s)
      (lupd (iS s) (kappa - 1) (nth kappa (iS s) 0)).

Definition swap_f (f : fst_ F) (kappa : nat) : fst_ F :=
  let desc1 := (if kappa =? 1 then lupd (fdesc f) 0 0
                else lupd (fdesc f) (kappa - 1) (nth kappa (fdesc f) 0 + 1)) in
  let f1 := set_desc (lupd desc1 kappa 0) f in
  let f2 := set_Bfp (colswap (fBfp f1) (kappa - 1) kappa) f1 in
  let f3 := set_VR (colswap (fVR f2) (kappa - 1) kappa) f2 in
  set_nB2 (lupd (lupd (fnB2 f3) kappa (nth (kappa - 1) (fnB2 f3) fz)) (kappa - 1) (nth kappa (fnB2 f3) fz)) f3.

(** the reduction selected by seysen_flag, 112-115 *)
Definition reduce (fuel : nat) (s : ist) (f : fst_ F) (kappa : nat) : res (ist * fst_ F * bool) :=
  if (cseysen c <? 1)%Z then hsizereduce fuel s f kappa 0 else seysenreduce fuel s f kappa.

(** return value, integer part, floating-point part, counters *)
Definition hres := (Z * ist * fst_ F * cnt)%type.

(** [nblov += 1], 127; [nbswaps += 1], 216; [if (verbose) verboseDepth += 1],
    118, 184, 266 *)
Definition inc_lov (q : cnt) : cnt := mkC (nblov q + 1) (nbswaps q) (vdepth q).
Definition inc_swap (q : cnt) : cnt := mkC (nblov q) (nbswaps q + 1) (vdepth q).
Definition inc_depth (verbose : bool) (q : cnt) : cnt :=
  if verbose then mkC (nblov q) (nbswaps q) (vdepth q + 1) else q.

(** the main loop 91-268 *)
Fixpoint hlll_loop (fuel : nat) (delta : F) (verbose : bool) (s : ist) (f : fst_ F)
         (kappa : nat) (prevkappa : Z) (prevR : list F) (q : cnt) : res hres :=
  if negb ((kappa <? ckmax c) && (nblov q <? cnblov_max c)%Z) then Ok (0%Z, s, f, inc_depth verbose q)
  else
  match fuel with
  | O => NoFuel
  | S fuel' =>
      let* f1 := hlll_enter s f kappa in
      let* (s2, f2, failed) := reduce fuel s f1 kappa in
      if failed then Ok ((-1)%Z, s2, f2, inc_depth verbose q)
      else
        let* (lovtest, newt) := lovasz delta s2 f2 kappa in
        let q1 := inc_lov q in
        if fle fp lovtest newt then
          (* UP, 145-200 *)
          guard (kappa <? d)   (* col_kept[kappa + 1], 151 *)
          (let* f3 := householder_v f2 kappa in
           let* rkk := gR (fR f3) kappa kappa in
           if ((prevkappa =? Z.of_nat kappa + 1)%Z && flt fp (nth kappa prevR fz) (fabs fp rkk))
           then Ok ((-1)%Z, s2, f3, inc_depth verbose q1)
           else
             let desc1 := lupd (fdesc f3) kappa 0 in
             let f4 := set_desc (if kappa =? 1 then lupd desc1 0 0 else desc1) f3 in
             hlll_loop fuel' delta verbose s2 f4 (kappa + 1) (Z.of_nat kappa)
                       (lupd prevR kappa (fabs fp rkk)) q1)
        else
          (* DOWN *)
          guard (kappa <? d)
          (hlll_loop fuel' delta verbose (swap_i s2 kappa) (swap_f f2 kappa)
                     (max (kappa - 1) 1) (Z.of_nat kappa) prevR (inc_swap q1))
  end.

(** reset of col_kept and descendu on entry, 73 *)
Definition hlll_reset (f : fst_ F) : fst_ F :=
  set_desc (map (fun _ => 0) (fdesc f))
    (set_kept (imap (fun i b => if i <? d then false else b) (fkept f)) f).

End Model.

Section Object.
Context {F : Type} (fp : fpops F).

(** hlll(delta, verbose): the object after the call and the returned value;
    verboseDepth is decremented on entry when verbose (57) *)
Definition hlll (fuel : nat) (delta : F) (verbose : bool) (junk : F) (L : lattice F)
  : res (Z * lattice F) :=
  let c := lcfg L in
  let q := lc L in
  let q0 := if verbose then mkC (nblov q) (nbswaps q) (vdepth q - 1) else q in
  let* (r, s, f, q') :=
     hlll_loop fp c fuel delta verbose (li L) (hlll_reset c (lf L)) 1 (-1)%Z
               (repeat junk (cd c)) q0 in
  Ok (r, mkL c s f q').

(** ** matrix_structure, mat.h 2966-2983, shifted by one *)
Fixpoint last_nz (v : nat -> Z) (n : nat) : nat :=
  match n with
  | O => 0
  | S m => if (v m =? 0)%Z then last_nz v m else S m
  end.

Fixpoint run_max (m : nat) (l : list nat) : list nat :=
  match l with [] => [] | x :: l' => let y := max m x in y :: run_max y l' end.

Definition matrix_structure (B : mat Z) (n d : nat) : list nat :=
  run_max 0 (map (fun j => last_nz (fun i => mget 0%Z B i j) n) (seq 0 d)).

(** identity, [setId] / constructor 2056-2062 *)
Definition id_mat (d : nat) : mat Z := mtab d d (fun i j => if i =? j then 1%Z else 0%Z).

(** Arbitrary contents of the memory that init leaves uninitialised. *)
Record junk_t := mkJ {
  jR : nat -> nat -> F; jRk : nat -> nat -> F; jV : nat -> nat -> F; jVR : nat -> nat -> F;
  jnB2 : nat -> F; jtoR : nat -> F; jx : F; jnmax : nat }.

(** init, 1991-2034 *)
Definition init_f (J : junk_t) (n d : nat) : fst_ F :=
  mkF (mtab n d (jR J)) (mtab n d (jRk J)) (mtab n d (jV J))
      (mtab n d (fun _ _ => fzero fp)) (mtab d d (jVR J))
      (map (jnB2 J) (seq 0 d)) (jx J) (map (jtoR J) (seq 0 n)) (jnmax J)
      (repeat false (d + 1)) (repeat (-1)%Z d) (repeat 0 d).

(** constructor, 2038-2082; [A] is n x d; without transf, U stays the empty
    matrix of its default constructor (mat.h 104) *)
Definition new_lattice (J : junk_t) (n d : nat) (A : mat Z) (forU : bool) (method : Z) (long_flag : bool)
           (vd : Z) : lattice F :=
  let B := mtab n d (fn A) in
  mkL (mkCfg n d forU d 4294967295%Z method long_flag 1 1000000%Z)
      (mkI B (if forU then id_mat d else []) (matrix_structure B n d))
      (init_f J n d)
      (mkC 0 0 vd).

(** set_nblov_max, 1859-1864 *)
Definition set_nblov_max (nb : Z) (L : lattice F) : lattice F :=
  let c := lcfg L in
  mkL (mkCfg (cn c) (cd c) (ctransf c) (ckmax c) nb (cseysen c) (clong c) (cS c) (cthr c)) (li L) (lf L) (lc L).

(** set_num_S, 1867-1879 *)
Definition set_num_S (S : nat) (thr : Z) (L : lattice F) : lattice F :=
  let c := lcfg L in
  mkL (mkCfg (cn c) (cd c) (ctransf c) (ckmax c) (cnblov_max c) (cseysen c) (clong c) S thr) (li L) (lf L) (lc L).

(** getbase, 1934-1943 *)
Definition getbase (L : lattice F) : mat Z := mtab (cn (lcfg L)) (cd (lcfg L)) (fn (iB (li L))).

(** getU, 1952-1966: an empty matrix when the transformation was not requested *)
Definition getU (L : lattice F) : mat Z :=
  if ctransf (lcfg L) then mtab (cd (lcfg L)) (cd (lcfg L)) (fn (iU (li L))) else [].

(** getR, 1969-1986; for n < d the rows n..d-1 of the upper triangle are left as
    allocated (junk) *)
Definition getR (junk : nat -> nat -> F) (L : lattice F) : mat F :=
  let n := cn (lcfg L) in let d := cd (lcfg L) in
  mtab d d (fun i j => if j <? i then fzero fp
                       else if i <? min n d then mget (fzero fp) (fR (lf L)) i j else junk i j).

(** assign(A), 2091-2117: nbswaps, Bfp and the other floating-point data are kept *)
Definition assign (A : mat Z) (L : lattice F) : lattice F :=
  let c := lcfg L in let f := lf L in
  let B := mtab (cn c) (cd c) (fn A) in
  mkL c (mkI B (if ctransf c then id_mat (cd c) else iU (li L)) (matrix_structure B (cn c) (cd c)))
      (set_kmin (map (fun _ => (-1)%Z) (fkmin f)) (hlll_reset c f))
      (mkC 0 (nbswaps (lc L)) (vdepth (lc L))).

End Object.
