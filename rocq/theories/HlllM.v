(** * [hplll::Lattice] over an arbitrary floating-point matrix class

    Hlll.v models the class for [MatrixFT = matrix<FP_NR<FT> >].  Here MatrixFT is a
    parameter: the operations that hlll.cc applies to R, Rkept, V and Bfp are the
    fields of a record, one arbitrary partial function each, and so are the scalar
    operations of [FP_NR<FT>] ([UB]: an operation of the class or of the number type
    with undefined behaviour, such as an overflow of an exponent).  Matpe.v gives the
    instance [MatrixPE] used by the hplll program.  The integer side (B, U, structure)
    is the one of Hlll.v.  Line numbers: /repo/src/hlll.cc. *)
From Coq Require Import ZArith Lia List Bool Arith.
From Verif Require Import Base Spec Mat FP Hlll.
Import ListNotations.

(** ** Scalars: FP_NR<FT> as used by hlll.cc *)
Record sops (F : Type) : Type := mk_sops {
  s_zero : F; s_one : F; s_01 : F; s_001 : F; s_eps : F;
  s_add : F -> F -> res F; s_mul : F -> F -> res F; s_div : F -> F -> res F;
  s_neg : F -> F; s_abs : F -> F; s_sqrt : F -> res F; s_rnd : F -> res F;
  s_submul : F -> F -> F -> res F;
  s_ge0 : F -> bool;                 (* w >= 0 *)
  s_le : F -> F -> bool; s_lt : F -> F -> bool; s_cmp1 : F -> F -> bool;
  s_nz : F -> res bool;              (* sgn() != 0 *)
  s_gse : F -> res (Z * Z);          (* get_si_exp *)
  s_setf : F -> res Z                (* set_f *)
}.
Arguments s_zero {F}. Arguments s_one {F}. Arguments s_01 {F}. Arguments s_001 {F}.
Arguments s_eps {F}. Arguments s_add {F}. Arguments s_mul {F}. Arguments s_div {F}.
Arguments s_neg {F}. Arguments s_abs {F}. Arguments s_sqrt {F}. Arguments s_rnd {F}.
Arguments s_submul {F}. Arguments s_ge0 {F}. Arguments s_le {F}. Arguments s_lt {F}.
Arguments s_cmp1 {F}. Arguments s_nz {F}. Arguments s_gse {F}. Arguments s_setf {F}.

(** ** Matrices: the operations of MatrixFT used by hlll.cc.  A column pointer
    [getcol(j,k)] is passed as the triple (matrix, j, k); lengths that the code
    computes by a subtraction are of type Z. *)
Record mops (F M : Type) : Type := mk_mops {
  m_get : M -> nat -> nat -> res F;                       (* get(i,j) *)
  m_getnn : M -> nat -> nat -> res F;                     (* get_non_normalized(i,j) *)
  m_set : nat -> nat -> F -> M -> res M;                  (* set(i,j,x) *)
  m_set0 : nat -> nat -> M -> res M;                      (* set(i,j,0.0) *)
  m_setcolz : nat -> list Z -> nat -> M -> res M;         (* setcol(j,b,0,nmax) *)
  m_setcolf : nat -> list F -> nat -> M -> res M;         (* setcol(j,&t[0],nmax) *)
  m_copycol : nat -> M -> nat -> nat -> M -> res M;       (* setcol(j,A.getcol(k),nmax) *)
  m_dot : M -> nat -> nat -> M -> nat -> nat -> Z -> F -> res F;  (* scalarprod, last argument: old value *)
  m_norm2 : M -> nat -> nat -> Z -> F -> res F;           (* fp_norm_sq *)
  m_norm : M -> nat -> nat -> Z -> F -> res F;            (* fp_norm *)
  m_fmasub : nat -> nat -> M -> nat -> nat -> M -> nat -> nat -> F -> nat -> M -> res M;
                                                          (* fmasub(j,k,w,z,a,l) *)
  m_div : nat -> nat -> M -> nat -> nat -> F -> Z -> M -> res M;  (* div(j,k,w,a,l) *)
  m_subcol : nat -> nat -> nat -> M -> res M;             (* subcol(j,k,l) *)
  m_addcol : nat -> nat -> nat -> M -> res M;
  m_submulcol : nat -> nat -> F -> nat -> M -> res M;     (* submulcol(j,k,a,l) *)
  m_colswap : nat -> nat -> M -> res M
}.
Arguments m_get {F M}. Arguments m_getnn {F M}. Arguments m_set {F M}. Arguments m_set0 {F M}.
Arguments m_setcolz {F M}. Arguments m_setcolf {F M}. Arguments m_copycol {F M}.
Arguments m_dot {F M}. Arguments m_norm2 {F M}. Arguments m_norm {F M}.
Arguments m_fmasub {F M}. Arguments m_div {F M}. Arguments m_subcol {F M}.
Arguments m_addcol {F M}. Arguments m_submulcol {F M}. Arguments m_colswap {F M}.

(** ** Floating-point part of the object, hlll.h 62-87; VR is a [matrix<FP_NR<FT> >]
    for every MatrixFT *)
Record gst (F M : Type) := mkG {
  gR_ : M; gRk : M; gV : M; gBfp : M; gVR_ : mat F;
  gnB2 : list F; gx : F; gtoR : list F;
  gnmax : nat; gkept : list bool; gkmin : list Z; gdesc : list nat
}.
Arguments mkG {F M}. Arguments gR_ {F M}. Arguments gRk {F M}. Arguments gV {F M}.
Arguments gBfp {F M}. Arguments gVR_ {F M}. Arguments gnB2 {F M}. Arguments gx {F M}.
Arguments gtoR {F M}. Arguments gnmax {F M}. Arguments gkept {F M}. Arguments gkmin {F M}.
Arguments gdesc {F M}.

Section Setters.
  Context {F M : Type}.
  Implicit Type f : gst F M.
  Definition put_R v f := mkG v (gRk f) (gV f) (gBfp f) (gVR_ f) (gnB2 f) (gx f) (gtoR f) (gnmax f) (gkept f) (gkmin f) (gdesc f).
  Definition put_Rk v f := mkG (gR_ f) v (gV f) (gBfp f) (gVR_ f) (gnB2 f) (gx f) (gtoR f) (gnmax f) (gkept f) (gkmin f) (gdesc f).
  Definition put_V v f := mkG (gR_ f) (gRk f) v (gBfp f) (gVR_ f) (gnB2 f) (gx f) (gtoR f) (gnmax f) (gkept f) (gkmin f) (gdesc f).
  Definition put_Bfp v f := mkG (gR_ f) (gRk f) (gV f) v (gVR_ f) (gnB2 f) (gx f) (gtoR f) (gnmax f) (gkept f) (gkmin f) (gdesc f).
  Definition put_VR v f := mkG (gR_ f) (gRk f) (gV f) (gBfp f) v (gnB2 f) (gx f) (gtoR f) (gnmax f) (gkept f) (gkmin f) (gdesc f).
  Definition put_nB2 v f := mkG (gR_ f) (gRk f) (gV f) (gBfp f) (gVR_ f) v (gx f) (gtoR f) (gnmax f) (gkept f) (gkmin f) (gdesc f).
  Definition put_x v f := mkG (gR_ f) (gRk f) (gV f) (gBfp f) (gVR_ f) (gnB2 f) v (gtoR f) (gnmax f) (gkept f) (gkmin f) (gdesc f).
  Definition put_toR v f := mkG (gR_ f) (gRk f) (gV f) (gBfp f) (gVR_ f) (gnB2 f) (gx f) v (gnmax f) (gkept f) (gkmin f) (gdesc f).
  Definition put_nmax v f := mkG (gR_ f) (gRk f) (gV f) (gBfp f) (gVR_ f) (gnB2 f) (gx f) (gtoR f) v (gkept f) (gkmin f) (gdesc f).
  Definition put_kept v f := mkG (gR_ f) (gRk f) (gV f) (gBfp f) (gVR_ f) (gnB2 f) (gx f) (gtoR f) (gnmax f) v (gkmin f) (gdesc f).
  Definition put_kmin v f := mkG (gR_ f) (gRk f) (gV f) (gBfp f) (gVR_ f) (gnB2 f) (gx f) (gtoR f) (gnmax f) (gkept f) v (gdesc f).
  Definition put_desc v f := mkG (gR_ f) (gRk f) (gV f) (gBfp f) (gVR_ f) (gnB2 f) (gx f) (gtoR f) (gnmax f) (gkept f) (gkmin f) v.
End Setters.

Section Model.
Context {F M : Type} (so : sops F) (mo : mops F M) (c : cfg).
Notation n := (cn c).
Notation d := (cd c).
Notation fz := (s_zero so).
Notation st := (gst F M).

(** ** householder_r, 1650-1800 *)
Definition g_hr_step (kappa nmax : nat) (dot : nat -> bool) (k : nat) (f : st) : res st :=
  let len := nmax - k in
  let '(W, jw) := (if k =? 0 then (gBfp f, kappa) else (gRk f, k - 1)) in
  guard ((k <? d) && (kappa <? d))
  (let* f1 := (if dot k then
                let* p := m_dot mo (gV f) k k W jw k (Z.of_nat len) (mget fz (gVR_ f) k kappa) in
                Ok (put_VR (mset (gVR_ f) k kappa p) f)
              else Ok f) in
   let* rk := m_fmasub mo k k W jw k (gV f1) k k (mget fz (gVR_ f1) k kappa) len (gRk f1) in
   Ok (put_Rk rk f1)).

Definition g_hr_loop (kappa nmax : nat) (dot : nat -> bool) (f : st) : res st :=
  mfold (g_hr_step kappa nmax dot) (0 :: seq 1 (min kappa nmax - 1)) f.

(** 1775-1792 *)
Definition g_hr_final (kappa nmax : nat) (f : st) : res st :=
  guard ((kappa <? d) && (nmax <=? n))
   (let* t := mfold (fun i t =>
                  let* x := (if (kappa <? nmax) && (kappa <=? i)
                             then m_getnn mo (gRk f) i (kappa - 1)
                             else m_getnn mo (gRk f) i i) in
                  Ok (lupd t i x)) (seq 0 nmax) (gtoR f) in
    let f1 := put_toR t f in
    let* R' := m_setcolf mo kappa t nmax (gR_ f1) in
    Ok (put_R R' f1)).

Definition g_householder_r (s : ist) (f0 : st) (kappa : nat) : res st :=
  guard (kappa <? d)
  (let nmax := nth kappa (iS s) 0 in
   let f := put_nmax nmax f0 in
   guard (nmax <=? n)
   (let* f' :=
     (if kappa =? 0 then
        if nth kappa (gkept f) false then
          let* R' := m_copycol mo kappa (gBfp f) kappa nmax (gR_ f) in Ok (put_R R' f)
        else
          let f1 := put_kept (lupd (gkept f) kappa true) f in
          let* b := m_setcolz mo kappa (col (iB s) kappa) nmax (gBfp f1) in
          let f2 := put_Bfp b f1 in
          let* R' := m_copycol mo kappa (gBfp f2) kappa nmax (gR_ f2) in
          let f3 := put_R R' f2 in
          let* q := m_norm2 mo (gR_ f3) kappa 0 (Z.of_nat nmax) (nth kappa (gnB2 f3) fz) in
          Ok (put_nB2 (lupd (gnB2 f3) kappa q) f3)
      else
        let* f4 :=
          (if nth kappa (gkept f) false then
             if ((nth kappa (gdesc f) 0 <? 1) || (kappa <=? nth kappa (gdesc f) 0)) then
               let km := nth kappa (gkmin f) 0%Z in
               if (km <? 0)%Z then UB
               else g_hr_loop kappa nmax (fun k => (km <=? Z.of_nat k)%Z) f
             else Ok f
           else
             let f1 := put_kept (lupd (gkept f) kappa true) f in
             let* b := m_setcolz mo kappa (col (iB s) kappa) nmax (gBfp f1) in
             let f2 := put_Bfp b f1 in
             let* q := m_norm2 mo (gBfp f2) kappa 0 (Z.of_nat nmax) (nth kappa (gnB2 f2) fz) in
             let f3 := put_nB2 (lupd (gnB2 f2) kappa q) f2 in
             g_hr_loop kappa nmax (fun _ => true) f3) in
        g_hr_final kappa nmax f4) in
   Ok (put_kmin (lupd (gkmin f') kappa (Z.of_nat kappa)) f'))).

(** ** householder_v, 1811-1856, in the order of the code: R.set, V.div, the zeros
    below nmaxkappa, then V(kappa,kappa) *)
Definition g_householder_v (f : st) (kappa : nat) : res st :=
  let nmax := gnmax f in
  let* w0 := m_get mo (gR_ f) kappa kappa in
  let* nr := m_norm mo (gR_ f) kappa kappa (Z.of_nat nmax - Z.of_nat kappa) fz in
  let '(s, rkk) := if s_ge0 so w0 then (nr, s_neg so nr) else (s_neg so nr, nr) in
  let* R' := m_set mo kappa kappa rkk (gR_ f) in
  let f1 := put_R R' f in
  let* w := s_add so w0 s in
  let* s1 := s_mul so s w in
  let* s2 := s_sqrt so s1 in
  let* V1 := m_div mo kappa (kappa + 1) (gR_ f1) kappa (kappa + 1) s2
                   (Z.of_nat nmax - Z.of_nat kappa - 1) (gV f1) in
  let* V2 := mfold (fun i V => m_set0 mo i kappa V) (seq nmax (n - nmax)) V1 in
  let* q := s_div so w s2 in
  let* V3 := m_set mo kappa kappa q V2 in
  Ok (put_V V3 f1).

(** ** the coefficient x: R's column, and (lx, expo, xz) for B and U.  [set_f] is
    evaluated only in the branches that use it *)
Definition g_rop (lx expo : Z) (x : F) (j k l : nat) (R : M) : res M :=
  if (expo =? 0)%Z then
    if (lx =? 1)%Z then m_subcol mo j k l R
    else if (lx =? -1)%Z then m_addcol mo j k l R
    else m_submulcol mo j k x l R
  else m_submulcol mo j k x l R.

Definition needs_z (lx expo : Z) : bool :=
  negb (clong c) && negb ((expo =? 0)%Z && ((lx =? 1)%Z || (lx =? -1)%Z)).

(** [xf] is the number converted by set_f: the coefficient in size_update, the
    member x in seysen_update *)
Definition g_xz (lx expo : Z) (xf : F) : res Z :=
  if needs_z lx expo then s_setf so xf else Ok 0%Z.

(** ** size_update, 1288-1412 *)
Definition g_size_update_step (kappa i : nat) (t : ist * st * bool) : res (ist * st * bool) :=
  let '(s, f, done) := t in
  let* rik := m_get mo (gR_ f) i kappa in
  let* rii := m_get mo (gR_ f) i i in
  let* x0 := s_div so rik rii in
  let* x := s_rnd so x0 in
  let f1 := put_x x f in
  let* z := s_nz so x in
  if z then
    let* (lx, expo) := s_gse so x in
    let nmax := nth i (iS s) 0 in
    let* xz := g_xz lx expo x in
    guard (nmax <=? n)
     (let* R' := g_rop lx expo x kappa i (i + 1) (gR_ f1) in
      let B' := colop 0%Z (bop c lx expo xz) 0 nmax (iB s) kappa i in
      let U' := if ctransf c then colop 0%Z (bop c lx expo xz) 0 (min d nmax) (iU s) kappa i else iU s in
      Ok (mkI B' U' (iS s), put_R R' f1, true))
  else Ok (s, f1, done).

Definition g_size_update (s : ist) (f : st) (kappa from_i : nat) : res (ist * st * bool) :=
  mfold (g_size_update_step kappa) (down from_i 0) (s, f, false).

(** ** size_update_R, 1424-1495 *)
Definition g_size_update_R_step (kappa i : nat) (t : st * list F * bool) : res (st * list F * bool) :=
  let '(f, vx, done) := t in
  let* rik := m_get mo (gR_ f) i kappa in
  let* rii := m_get mo (gR_ f) i i in
  let* x0 := s_div so rik rii in
  let* x := s_rnd so x0 in
  let f1 := put_x x f in
  let vx' := lupd vx i x in
  let* z := s_nz so x in
  if z then
    let* (lx, expo) := s_gse so x in
    let* R' := g_rop lx expo x kappa i (i + 1) (gR_ f1) in
    Ok (put_R R' f1, vx', true)
  else Ok (f1, vx', done).

Definition g_size_update_R (f : st) (vx : list F) (kappa from_i : nat) : res (st * list F * bool) :=
  mfold (g_size_update_R_step kappa) (down from_i 0) (f, vx, false).

(** ** psize_update_B, 1505-1640: the integer coefficients extracted from vectx
    (each thread recomputes the same ones), then the row-sliced column updates of
    Hlll.v *)
Definition trip := (bool * (Z * Z) * Z)%type.
Definition g_trip (x : F) : res trip :=
  let* z := s_nz so x in
  if z then
    let* (lx, expo) := s_gse so x in
    let* xz := g_xz lx expo x in
    Ok (true, (lx, expo), xz)
  else Ok (false, (0%Z, 0%Z), 0%Z).

Definition t0 : trip := (false, (0%Z, 0%Z), 0%Z).
(** only fnz, fgse and fset_f are read by psize_update_B *)
Definition tfp : fpops trip :=
  mk_fpops trip t0 t0 t0 t0 t0 (fun a _ => a) (fun a _ => a) (fun a _ => a) (fun a _ => a)
    (fun a => a) (fun a => a) (fun a => a) (fun a => a) (fun a _ _ => a) (fun a _ _ => a)
    (fun _ _ => false) (fun _ _ => false) (fun _ _ => false)
    (fun t => fst (fst t)) (fun _ => t0) (fun t => snd (fst t)) (fun t => snd t).

Definition g_psize_update_B (s : ist) (kappa from_i : nat) (vx : list F) : res ist :=
  let* ts := mfold (fun i ts => let* t := g_trip (nth i vx fz) in Ok (lupd ts i t))
                   (down from_i 0) (repeat t0 (length vx)) in
  psize_update_B tfp c s kappa from_i ts.

(** ** hsizereduce, 1137-1281 *)
Fixpoint g_mu_anomaly (R : M) (kappa : nat) (theta : F) (is : list nat) : res bool :=
  match is with
  | [] => Ok false
  | i :: is' =>
      let* rik := m_get mo R i kappa in
      let* rii := m_get mo R i i in
      let* q := s_div so rik rii in
      let* q2 := s_div so theta rii in
      let* mt := s_add so (s_abs so q2) (s_one so) in
      if s_cmp1 so (s_abs so q) mt then Ok true else g_mu_anomaly R kappa theta is'
  end.

Definition g_hs_pass (s : ist) (f : st) (vx : list F) (kappa start : nat)
  : res (ist * st * list F * bool) :=
  if ((cS c =? 1) || (Z.of_nat kappa - 1 <? cthr c)%Z) then
    let* (s1, f1, sd) := g_size_update s f kappa start in Ok (s1, f1, vx, sd)
  else
    let* (f1, vx1, sd) := g_size_update_R f vx kappa start in
    let* s1 := g_psize_update_B s kappa start vx1 in
    Ok (s1, f1, vx1, sd).

Fixpoint g_hs_loop (fuel : nat) (s : ist) (f : st) (vx : list F) (prev_nonstop : bool)
         (kappa start : nat) : res (ist * st * bool) :=
  match fuel with
  | O => NoFuel
  | S fuel' =>
      let* (s1, f1, vx1, somedone) := g_hs_pass s f vx kappa start in
      if somedone then
        let f2 := put_kept (lupd (gkept f1) kappa false) f1 in
        let* t := s_mul so (s_01 so) (nth kappa (gnB2 f2) fz) in
        let* f3 := g_householder_r s1 f2 kappa in
        let nonstop := s_lt so (nth kappa (gnB2 f3) fz) t in
        if (negb prev_nonstop && negb nonstop) then
          let* th0 := s_sqrt so (nth kappa (gnB2 f3) fz) in
          let* theta := s_mul so th0 (s_eps so) in
          let* bad := g_mu_anomaly (gR_ f3) kappa theta (seq 0 kappa) in
          Ok (s1, f3, bad)
        else g_hs_loop fuel' s1 f3 vx1 nonstop kappa start
      else Ok (s1, f1, false)
  end.

Definition g_hsizereduce (fuel : nat) (s : ist) (f : st) (kappa fromk : nat) : res (ist * st * bool) :=
  let* f1 := g_householder_r s f kappa in
  g_hs_loop fuel s f1 (repeat fz n) true kappa (hs_start kappa fromk).

(** ** seysenreduce, 295-500; seysen_update, 510-626 *)
Definition g_seysen_update_step (kappa restdim : nat) (i : nat) (t : ist * st * list F * bool)
  : res (ist * st * list F * bool) :=
  let '(s, f, vx, done) := t in
  let* xf := s_rnd so (nth i vx fz) in
  let vx' := lupd vx i xf in
  let* z := s_nz so xf in
  if z then
    let* (lx, expo) := s_gse so xf in
    let nmax := nth i (iS s) 0 in
    let* xz := g_xz lx expo (gx f) in
    guard ((nmax <=? n) && (restdim <=? n))
     (let* R' := g_rop lx expo xf kappa i restdim (gR_ f) in
      let B' := colop 0%Z (bop c lx expo xz) 0 nmax (iB s) kappa i in
      let U' := if ctransf c then colop 0%Z (bop c lx expo xz) 0 (min d nmax) (iU s) kappa i else iU s in
      Ok (mkI B' U' (iS s), put_R R' f, vx', true))
  else Ok (s, f, vx', done).

Definition g_seysen_coefs_step (R : M) (restdim : nat) (i : nat) (t : list F * list F)
  : res (list F * list F) :=
  let '(vx, tmp) := t in
  let* rii := m_get mo R i i in
  let* xi := s_div so (nth i tmp fz) rii in
  let* tmp' := mfold (fun k t => let* rki := m_get mo R k i in
                                 let* y := s_submul so (nth k t fz) rki xi in Ok (lupd t k y))
                     (seq restdim (i - restdim)) tmp in
  Ok (lupd vx i xi, tmp').

Definition g_seysen_block (kappa indexdec bdim : nat) (t : ist * st * list F * list F * bool)
  : res (ist * st * list F * list F * bool) :=
  let '(s, f, vx, tmp, done) := t in
  let restdim := kappa - indexdec - bdim in
  let rows := block_rows kappa indexdec bdim in
  let* tmp1 := mfold (fun i t => let* r := m_get mo (gR_ f) i kappa in Ok (lupd t i r)) rows tmp in
  let* (vx1, tmp2) := mfold (g_seysen_coefs_step (gR_ f) restdim) rows (vx, tmp1) in
  if ((cS c =? 1) || (Z.of_nat bdim <? cthr c)%Z) then
    let* (s1, f1, vx2, sd) := mfold (g_seysen_update_step kappa restdim) rows (s, f, vx1, false) in
    Ok (s1, f1, vx2, tmp2, done || sd)
  else Ok (s, f, vx1, tmp2, done).

Definition g_seysen_pass (s : ist) (f : st) (vx tmp : list F) (kappa : nat)
  : res (ist * st * list F * list F * bool) :=
  mfold (fun b t => g_seysen_block kappa (fst b) (snd b) t)
        (seysen_blocks (kappa + 1) 1 0 kappa) (s, f, vx, tmp, false).

Fixpoint g_seysen_loop (fuel : nat) (s : ist) (f : st) (vx tmp : list F) (ns0 ns1 : bool) (kappa : nat)
  : res (ist * st) :=
  match fuel with
  | O => NoFuel
  | S fuel' =>
      let* (s1, f1, vx1, tmp1, somedone) := g_seysen_pass s f vx tmp kappa in
      if somedone then
        let f2 := put_kept (lupd (gkept f1) kappa false) f1 in
        let* t := s_mul so (s_001 so) (nth kappa (gnB2 f2) fz) in
        let* f3 := g_householder_r s1 f2 kappa in
        let ns2 := s_lt so (nth kappa (gnB2 f3) fz) t in
        if negb (ns0 || ns1 || ns2) then
          let* _ := m_get mo (gR_ f3) (kappa - 1) kappa in
          let* _ := m_get mo (gR_ f3) (kappa - 1) (kappa - 1) in
          Ok (s1, f3)
        else g_seysen_loop fuel' s1 f3 vx1 tmp1 ns1 ns2 kappa
      else Ok (s1, f1)
  end.

Definition g_seysenreduce (fuel : nat) (s : ist) (f : st) (kappa : nat) : res (ist * st * bool) :=
  let f0 := put_nmax (nth kappa (iS s) 0) f in
  let* f1 := g_householder_r s f0 kappa in
  let* (s2, f2) := g_seysen_loop fuel s f1 (repeat fz kappa) (repeat fz kappa) true true kappa in
  Ok (s2, f2, false).

(** ** hlll, 38-275 *)

(** the Lovasz quantities, 121-137; [s] is a local variable of hlll that keeps its
    value from one iteration to the next: fp_norm may leave it unchanged *)
Definition g_lovasz (delta : F) (s : ist) (f : st) (kappa : nat) (sv : F) : res (F * F * F) :=
  let* rp := m_get mo (gR_ f) (kappa - 1) (kappa - 1) in
  let* l0 := s_mul so rp rp in
  let* lovtest := s_mul so delta l0 in
  let* s0 := m_norm mo (gR_ f) kappa kappa (Z.of_nat (nth kappa (iS s) 0) - Z.of_nat kappa) sv in
  let* s1 := s_mul so s0 s0 in
  let* r2 := m_get mo (gR_ f) (kappa - 1) kappa in
  let* sn := s_mul so r2 r2 in
  let* newt := s_add so s1 sn in
  Ok (lovtest, newt, s1).

Definition g_hlll_enter (s : ist) (f : st) (kappa : nat) : res st :=
  if kappa =? 1 then
    let f1 := put_kmin (map (fun z => Z.min z 0) (gkmin f)) f in
    let* f2 := g_householder_r s f1 0 in
    g_householder_v f2 0
  else
    Ok (put_kmin (imap (fun i z => if kappa <? i then Z.min z (Z.of_nat kappa) else z) (gkmin f)) f).

Definition g_swap_f (f : st) (kappa : nat) : res st :=
  let desc1 := (if kappa =? 1 then lupd (gdesc f) 0 0
                else lupd (gdesc f) (kappa - 1) (nth kappa (gdesc f) 0 + 1)) in
  let f1 := put_desc (lupd desc1 kappa 0) f in
  let* b := m_colswap mo (kappa - 1) kappa (gBfp f1) in
  let f2 := put_Bfp b f1 in
  let f3 := put_VR (colswap (gVR_ f2) (kappa - 1) kappa) f2 in
  Ok (put_nB2 (lupd (lupd (gnB2 f3) kappa (nth (kappa - 1) (gnB2 f3) fz)) (kappa - 1) (nth kappa (gnB2 f3) fz)) f3).

Definition g_reduce (fuel : nat) (s : ist) (f : st) (kappa : nat) : res (ist * st * bool) :=
  if (cseysen c <? 1)%Z then g_hsizereduce fuel s f kappa 0 else g_seysenreduce fuel s f kappa.

Definition g_hres := (Z * ist * st * cnt)%type.

Fixpoint g_hlll_loop (fuel : nat) (delta : F) (verbose : bool) (s : ist) (f : st)
         (kappa : nat) (prevkappa : Z) (prevR : list F) (sv : F) (q : cnt) : res g_hres :=
  if negb ((kappa <? ckmax c) && (nblov q <? cnblov_max c)%Z) then Ok (0%Z, s, f, inc_depth verbose q)
  else
  match fuel with
  | O => NoFuel
  | S fuel' =>
      let* f1 := g_hlll_enter s f kappa in
      let* (s2, f2, failed) := g_reduce fuel s f1 kappa in
      if failed then Ok ((-1)%Z, s2, f2, inc_depth verbose q)
      else
        let* (lovtest, newt, sv') := g_lovasz delta s2 f2 kappa sv in
        let q1 := inc_lov q in
        if s_le so lovtest newt then
          guard (kappa <? d)
          (let* f3 := g_householder_v f2 kappa in
           let* rkk := m_get mo (gR_ f3) kappa kappa in
           if ((prevkappa =? Z.of_nat kappa + 1)%Z && s_lt so (nth kappa prevR fz) (s_abs so rkk))
           then Ok ((-1)%Z, s2, f3, inc_depth verbose q1)
           else
             let desc1 := lupd (gdesc f3) kappa 0 in
             let f4 := put_desc (if kappa =? 1 then lupd desc1 0 0 else desc1) f3 in
             g_hlll_loop fuel' delta verbose s2 f4 (kappa + 1) (Z.of_nat kappa)
                       (lupd prevR kappa (s_abs so rkk)) sv' q1)
        else
          guard (kappa <? d)
          (let* f3 := g_swap_f f2 kappa in
           g_hlll_loop fuel' delta verbose (swap_i c s2 kappa) f3
                     (max (kappa - 1) 1) (Z.of_nat kappa) prevR sv' (inc_swap q1))
  end.

Definition g_hlll_reset (f : st) : st :=
  put_desc (map (fun _ => 0) (gdesc f))
    (put_kept (imap (fun i b => if i <? d then false else b) (gkept f)) f).

End Model.

Section Object.
Context {F M : Type} (so : sops F) (mo : mops F M).

Record glattice := mkGL { glcfg : cfg; gli : ist; glf : gst F M; glc : cnt }.

(** hlll(delta, verbose) *)
Definition g_hlll (fuel : nat) (delta : F) (verbose : bool) (junk : F) (L : glattice)
  : res (Z * glattice) :=
  let c := glcfg L in
  let q := glc L in
  let q0 := if verbose then mkC (nblov q) (nbswaps q) (vdepth q - 1) else q in
  let* (r, s, f, q') :=
     g_hlll_loop so mo c fuel delta verbose (gli L) (g_hlll_reset c (glf L)) 1 (-1)%Z
               (repeat junk (cd c)) junk q0 in
  Ok (r, mkGL c s f q').

(** constructor, 2038-2082; [f0]: the floating-point members left by init (1991-2034) *)
Definition g_new (f0 : gst F M) (n d : nat) (A : mat Z) (forU : bool) (method : Z) (long_flag : bool)
           (vd : Z) : glattice :=
  let B := mtab n d (fn A) in
  mkGL (mkCfg n d forU d 4294967295%Z method long_flag 1 1000000%Z)
      (mkI B (if forU then id_mat d else []) (matrix_structure B n d))
      f0 (mkC 0 0 vd).

Definition g_set_num_S (S : nat) (thr : Z) (L : glattice) : glattice :=
  let c := glcfg L in
  mkGL (mkCfg (cn c) (cd c) (ctransf c) (ckmax c) (cnblov_max c) (cseysen c) (clong c) S thr) (gli L) (glf L) (glc L).

Definition g_set_nblov_max (nb : Z) (L : glattice) : glattice :=
  let c := glcfg L in
  mkGL (mkCfg (cn c) (cd c) (ctransf c) (ckmax c) nb (cseysen c) (clong c) (cS c) (cthr c)) (gli L) (glf L) (glc L).

Definition g_getbase (L : glattice) : mat Z := mtab (cn (glcfg L)) (cd (glcfg L)) (fn (iB (gli L))).
Definition g_getU (L : glattice) : mat Z :=
  if ctransf (glcfg L) then mtab (cd (glcfg L)) (cd (glcfg L)) (fn (iU (gli L))) else [].
End Object.
Arguments mkGL {F M}. Arguments glcfg {F M}. Arguments gli {F M}. Arguments glf {F M}. Arguments glc {F M}.
