(** * Model of [SLattice] (src/slll.h, src/slll.cc): segment LLL

    Line numbers refer to /repo/src/slll.cc unless another file is given.  ZT = mpz_t.
    size_update (1147-1260), size_update_R, psize_update_B, householder_r (1507-1661) and
    householder_v (1668-1716) are textually the functions of hlll.cc: the definitions of Hlll.v are
    used.  hsizereduce (1000-1135) is hlll.cc's with num_S = 1 and the constant 0.001 instead of 0.1.
    Timers and printing are not modelled. *)
From Coq Require Import ZArith Lia List Bool Arith.
From Verif Require Import Base Spec Mat FP Hlll Hlll2.
Import ListNotations.

(** slll.h 33-90.  The dimensions n, d (after padding), transf, seysen_flag and fast_long_flag are in
    [scfg] (cS = 1); [snorig], [sdorig]: norigin, dorigin; [samax]: amax; [sswaps]: swapstab *)
Record slattice (F : Type) := mkSL {
  scfg : cfg; snorig : nat; sdorig : nat; samax : Z;
  si : ist; sf : fst_ F; sswaps : list Z; scnt : cnt }.
Arguments mkSL {F}. Arguments scfg {F}. Arguments snorig {F}. Arguments sdorig {F}. Arguments samax {F}.
Arguments si {F}. Arguments sf {F}. Arguments sswaps {F}. Arguments scnt {F}.

Section Slll.
Context {F : Type} (fp : fpops F).
(** constants and operations not in [fpops]: 0.001 (1009), 0.501 (581), 0.000000001 (422), mul_2si *)
Variables (f0001 f501 fgap : F) (fmul2 : F -> Z -> F).

(** the arithmetic with 0.001 in the place of hlll.cc's 0.1 *)
Definition fp_s : fpops F :=
  mk_fpops F (fzero fp) (fone fp) f0001 (f001 fp) (feps fp) (fadd fp) (fsub fp) (fmul fp) (fdiv fp) (fneg fp)
    (fabs fp) (fsqrt fp) (frnd fp) (faddmul fp) (fsubmul fp) (fle fp) (flt fp) (fcmp1 fp) (fnz fp) (fset_z fp)
    (fgse fp) (fset_f fp).

Section Cfg.
Variable c : cfg.
Notation n := (cn c).
Notation d := (cd c).
Notation fz := (fzero fp).

(** ** Seysen reduction, 491-650 *)

(** one row of the first inner loop, 570-596: the coefficient, [bounded], the update of tmpcolR;
    the assignments to qq before [qq.abs(vectx[i])] are dead *)
Definition ss_coefs_step (R : mat F) (restdim : nat) (i : nat) (st : list F * list F * list bool * bool)
  : res (list F * list F * list bool * bool) :=
  let '(vx, tmp, bd, done) := st in
  let* rii := gR fp c R i i in
  let xi := fdiv fp (nth i tmp fz) rii in
  let big := fcmp1 fp (fabs fp xi) f501 in
  Ok (lupd vx i xi,
      fold_left (fun t k => lupd t k (fsubmul fp (nth k t fz) (mget fz R k i) xi)) (seq restdim (i - restdim)) tmp,
      lupd bd i (negb big), done || big).

(** seysen_update, 658-768: as in hlll.cc, under [bounded[i] == 0]; [set_f(xz, x)] converts the member x *)
Definition ss_update_step (kappa restdim : nat) (vx : list F) (bd : list bool) (i : nat) (st : ist * fst_ F) : res (ist * fst_ F) :=
  let '(s, f) := st in
  if nth i bd true then Ok (s, f)
  else
    let xf := nth i vx fz in
    let '(lx, expo) := fgse fp xf in
    let nmax := nth i (iS s) 0 in
    let xz := fset_f fp (fx f) in
    guard ((nmax <=? n) && (restdim <=? n))
     (let f2 := set_R (colop fz (rop fp lx expo xf) 0 restdim (fR f) kappa i) f in
      let B' := colop 0%Z (bop c lx expo xz) 0 nmax (iB s) kappa i in
      let U' := if ctransf c then colop 0%Z (bop c lx expo xz) 0 (min d nmax) (iU s) kappa i else iU s in
      Ok (mkI B' U' (iS s), f2)).

(** seysen_update_R, 776-839 *)
Definition ss_update_R_step (kappa restdim : nat) (vx : list F) (bd : list bool) (i : nat) (f : fst_ F) : res (fst_ F) :=
  if nth i bd true then Ok f
  else
    let xf := nth i vx fz in
    let '(lx, expo) := fgse fp xf in
    guard (restdim <=? n) (Ok (set_R (colop fz (rop fp lx expo xf) 0 restdim (fR f) kappa i) f)).

(** pseysen_update_B, 853-984: thread l of 2 updates the rows of its slice of B (not U); the threads
    write disjoint rows, here one after the other *)
Definition ss_thread (x : F) (kappa : nat) (rows : list nat) (vx : list F) (bd : list bool) (ibeg nloc : nat) (B : mat Z) : mat Z :=
  fold_left (fun B i => if nth i bd true then B
                        else let '(lx, expo) := fgse fp (nth i vx fz) in
                             colop 0%Z (bop c lx expo (fset_f fp x)) ibeg nloc B kappa i) rows B.
Definition ss_nmax (s : ist) (from_i restdim : nat) : nat :=
  fold_left (fun m i => max m (nth i (iS s) 0)) (down (from_i + 1) restdim) (nth from_i (iS s) 0).
Definition ss_pupdate_B (s : ist) (f : fst_ F) (kappa from_i restdim : nat) (rows : list nat) (vx : list F) (bd : list bool) : res ist :=
  let nmax := ss_nmax s from_i restdim in
  guard ((from_i + 1 <? d) && (nmax <=? n))
    (Ok (mkI (fold_left (fun B l => ss_thread (fx f) kappa rows vx bd (slice_beg nmax 2 l) (slice_len nmax 2 l) B) (seq 0 2) (iB s))
             (iU s) (iS s))).

(** one block of the column, 545-625 *)
Definition ss_block (kappa indexdec bdim : nat) (st : ist * fst_ F * list F * list F * list bool * bool)
  : res (ist * fst_ F * list F * list F * list bool * bool) :=
  let '(s, f, vx, tmp, bd, done) := st in
  let restdim := kappa - indexdec - bdim in
  let rows := block_rows kappa indexdec bdim in
  let* tmp1 := mfold (fun i t => let* r := gR fp c (fR f) i kappa in Ok (lupd t i r)) rows tmp in
  let* (vx1, tmp2, bd1, done1) := mfold (ss_coefs_step (fR f) restdim) rows (vx, tmp1, bd, done) in
  let vx2 := fold_left (fun v i => lupd v i (frnd fp (nth i v fz))) rows vx1 in
  if bdim <=? 255 then
    let* (s1, f1) := mfold (ss_update_step kappa restdim vx2 bd1) rows (s, f) in
    Ok (s1, f1, vx2, tmp2, bd1, done1)
  else
    let* f1 := mfold (ss_update_R_step kappa restdim vx2 bd1) rows f in
    let* s1 := ss_pupdate_B s f1 kappa (kappa - 1 - indexdec) restdim rows vx2 bd1 in
    Ok (s1, f1, vx2, tmp2, bd1, done1).

Definition ss_pass (s : ist) (f : fst_ F) (vx tmp : list F) (bd : list bool) (kappa : nat)
  : res (ist * fst_ F * list F * list F * list bool * bool) :=
  mfold (fun b st => ss_block kappa (fst b) (snd b) st) (seysen_blocks (kappa + 1) 1 0 kappa) (s, f, vx, tmp, bd, false).

(** the convergence loop, 526-646 *)
Fixpoint ss_loop (fuel : nat) (s : ist) (f : fst_ F) (vx tmp : list F) (bd : list bool) (kappa : nat) : res (ist * fst_ F) :=
  match fuel with
  | O => NoFuel
  | S fuel' =>
      let* (s1, f1, vx1, tmp1, bd1, somedone) := ss_pass s f vx tmp bd kappa in
      if somedone then
        let f2 := set_kept (lupd (fkept f1) kappa false) f1 in
        let* f3 := householder_r fp c s1 f2 kappa in
        ss_loop fuel' s1 f3 vx1 tmp1 bd1 kappa
      else Ok (s1, f1)
  end.

Definition ss_seysenreduce (fuel : nat) (s : ist) (f : fst_ F) (kappa : nat) : res (ist * fst_ F) :=
  let* f1 := householder_r fp c s (set_nmax (nth kappa (iS s) 0) f) kappa in
  ss_loop fuel s f1 (repeat fz kappa) (repeat fz kappa) (repeat false kappa) kappa.

(** ** reduce_and_gap_detect, 415-478; the value returned by hsizereduce is ignored *)
Definition sl_size (fuel : nat) (s : ist) (f : fst_ F) (i : nat) : res (ist * fst_ F) :=
  if (cseysen c <? 1)%Z then let* (s1, f1, _) := hsizereduce fp_s c fuel s f i 0 in Ok (s1, f1)
  else ss_seysenreduce fuel s f i.

Fixpoint sl_gap_loop (fuel dorig : nat) (is : list nat) (s : ist) (f : fst_ F) : res (Z * ist * fst_ F) :=
  match is with
  | [] => Ok (0%Z, s, f)
  | i :: is' =>
      let* (s1, f1) := sl_size fuel s f i in
      let* f2 := householder_v fp c f1 i in
      if (2 <=? i) && (i <? dorig - 1) then
        let* a := gR fp c (fR f2) i i in
        let* b := gR fp c (fR f2) (i - 1) (i - 1) in
        if fcmp1 fp fgap (fabs fp (fdiv fp a b)) then Ok (Z.of_nat (i + 1), s1, f2)
        else sl_gap_loop fuel dorig is' s1 f2
      else sl_gap_loop fuel dorig is' s1 f2
  end.

Definition sl_reduce_gap (fuel dorig : nat) (s : ist) (f : fst_ F) : res (Z * ist * fst_ F) :=
  let f0 := set_desc (imap (fun i x => if i <? dorig then 0 else x) (fdesc f))
              (set_kept (imap (fun i b => if i <? dorig then false else b) (fkept f)) f) in
  let* f1 := householder_r fp c s f0 0 in
  let* f2 := householder_v fp c f1 0 in
  sl_gap_loop fuel dorig (seq 1 (dorig - 1)) s f2.

(** householder(dmax), 2046-2096: the columns before dmax (all of them when dmax = 0) *)
Definition sl_householder (dmax : nat) (B : mat Z) (f : fst_ F) : res (fst_ F) :=
  mfold (hh_col fp c B) (seq 0 (if dmax =? 0 then d else dmax)) f.

(** 114-115, 235-236, 333-334: R(i,i) = afmax on the padding *)
Definition sl_padR (dorig : nat) (afmax : F) (f : fst_ F) : res (fst_ F) :=
  mfold (fun i f => guard ((i <? n) && (i <? d)) (Ok (set_R (mset (fR f) i i afmax) f))) (seq dorig (d - dorig)) f.

(** set_f(RZ,R,condbits), mat.h 2580-2632 (mpfr; matpe.h 1414-1452 and 1499-1540 are the same for the
    other types) followed by 139-149 and 256-266: zeros below the diagonal, 1 for a zero on the diagonal.
    mpz_sizeinbase(z,2) is 1 for z = 0. *)
Definition size_in_bits (z : Z) : Z := if (z =? 0)%Z then 1%Z else (Z.log2 (Z.abs z) + 1)%Z.
Definition sl_minval (R : mat F) : res F :=
  let* c0 := gcol c R 0 0 in
  let* m0 := fp_norm fp c0 d in
  mfold (fun j m => let* cj := gcol c R j 0 in
                    let* nj := fp_norm fp cj d in
                    Ok (if fcmp1 fp m nj then nj else m)) (seq 1 (d - 1)) m0.
Definition sl_RZ (condbits : Z) (R : mat F) : res (mat Z) :=
  let* mv := sl_minval R in
  let s := (- (size_in_bits (fset_f fp mv) - condbits))%Z in
  let e i j := fset_f fp (fmul2 (mget fz R i j) s) in
  guard (d <=? n)
    (Ok (mtab d d (fun i j => if j <? i then 0%Z
                              else if (i =? j) && (e i j =? 0)%Z then 1%Z else e i j))).

(** ** One phase of block reductions, 154-190 (even, off = 0, S blocks) and 270-298 (odd, off = bdim,
    S - 1 blocks).  getblock(RZ,k,k,S,off), mat.h 626-649; putblock(U,.,k,k,S,off), 912-934.  The
    iterations of the parallel loop write disjoint blocks of U_even / U_odd, disjoint entries of
    swapstab and lovtests; nbswaps is shared (see SlllPar.v); here one after the other.
    [tests]: the sum of the lovtests *)
Definition sl_getblock (RZ : mat Z) (sdim k off : nat) : res (mat Z) :=
  guard (k * sdim + sdim + off <=? d) (Ok (mtab sdim sdim (fun i j => fn RZ (k * sdim + i + off) (k * sdim + j + off)))).
Definition sl_putblock (U Uk : mat Z) (sdim k off : nat) : res (mat Z) :=
  guard (k * sdim + sdim + off <=? d)
   (Ok (mtab d d (fun i j => if (k * sdim + off <=? i) && (i <? k * sdim + off + sdim) && (k * sdim + off <=? j) && (j <? k * sdim + off + sdim)
                             then fn Uk (i - (k * sdim + off)) (j - (k * sdim + off)) else fn U i j))).

(** the reduction of block k, 160-166: getU(), nbswaps and nblov of the local object BR *)
Definition sl_block_out (fuel : nat) (delta junk : F) (Jb : nat -> junk_t (F := F)) (lovmax vd : Z) (RZ : mat Z) (sdim off : nat)
  (k : nat) : res (mat Z * Z * Z) :=
  let* Bk := sl_getblock RZ sdim k off in
  let BR := set_nblov_max lovmax (new_lattice fp (Jb k) sdim sdim Bk true (cseysen c) true vd) in
  let* (_, BR') := hlll fp fuel delta false junk BR in
  Ok (getU BR', nbswaps (lc BR'), nblov (lc BR')).

Definition bacc := (mat Z * list Z * cnt * Z)%type.
Definition sl_block_red (fuel : nat) (delta junk : F) (Jb : nat -> junk_t (F := F)) (lovmax : Z) (RZ : mat Z) (sdim off odd : nat)
  (k : nat) (st : bacc) : res bacc :=
  let '(U, sw, q, tests) := st in
  let* (Uk, nsw, nlov) := sl_block_out fuel delta junk Jb lovmax (vdepth q) RZ sdim off k in
  guard (2 * k + odd <? length sw)
   (let sw' := lupd sw (2 * k + odd) (nth (2 * k + odd) sw 0 + nsw)%Z in
    let* U' := sl_putblock U Uk sdim k off in
    Ok (U', sw', mkC (nblov q) (nbswaps q + nsw) (vdepth q), (tests + nlov)%Z)).

(** ** pmatprod(S,dec), 2104-2192: block b multiplies the columns shift .. shift+sdim-1 of B by the
    diagonal block of U; exact integers, so the order of the additions does not matter *)
Definition sl_block_prod (U : mat Z) (sdim shift : nat) (B : mat Z) : res (mat Z) :=
  guard (shift + sdim <=? d)
    (Ok (mtab n d (fun i j => if (shift <=? j) && (j <? shift + sdim)
                              then sumZ sdim (fun k => (fn B i (shift + k)%nat * fn U (shift + k)%nat j)%Z) else fn B i j))).
Definition sl_pmatprod (S dec : nat) (U B : mat Z) : res (mat Z) :=
  let sdim := d / S in
  mfold (fun b B => sl_block_prod U sdim (b * sdim + (if dec =? 0 then 0 else sdim / 2)) B)
        (seq 0 (if dec =? 0 then S else S - 1)) B.

(** one half iteration: RZ, the block reductions, the product, the size reduction and gap detection
    (128-240 even, 244-338 odd).  Result: gap status, tests, state *)
Definition sl_half (fuel : nat) (delta junk : F) (Jb : nat -> junk_t (F := F)) (lovmax : Z) (S dorig odd : nat) (afmax : F)
  (s : ist) (f : fst_ F) (sw : list Z) (q : cnt) : res (Z * Z * ist * fst_ F * list Z * cnt) :=
  let sdim := d / S in
  let bdim := d / (2 * S) in
  let* RZ := sl_RZ 63 (fR f) in
  let nb := if odd =? 0 then S else S - 1 in
  let* (U, sw1, q1, tests) :=
    mfold (sl_block_red fuel delta junk Jb lovmax RZ sdim (if odd =? 0 then 0 else bdim) odd) (seq 0 nb) (id_mat d, sw, q, 0%Z) in
  let q2 := mkC (nblov q1 + tests) (nbswaps q1) (vdepth q1) in
  let* B1 := sl_pmatprod S odd U (iB s) in
  let* (gs, s1, f1) := sl_reduce_gap fuel dorig (mkI B1 U (iS s)) f in
  if (2 <=? gs)%Z then Ok (gs, tests, s1, f1, sw1, q2)
  else let* f2 := sl_padR dorig afmax f1 in Ok (gs, tests, s1, f2, sw1, q2).

(** the main loop, 123-340 *)
Fixpoint sl_loop (fuel : nat) (delta junk : F) (Jb : nat -> nat -> junk_t (F := F)) (lovmax : Z) (S dorig : nat) (afmax : F)
  (s : ist) (f : fst_ F) (sw : list Z) (q : cnt) : res (Z * ist * fst_ F * list Z * cnt) :=
  match fuel with
  | O => NoFuel
  | Datatypes.S fuel' =>
      let bdim := d / (2 * S) in
      let* (gs, t1, s1, f1, sw1, q1) := sl_half fuel delta junk (Jb (2 * fuel')) lovmax S dorig 0 afmax s f sw q in
      if (2 <=? gs)%Z then Ok (gs, s1, f1, sw1, q1)
      else
        let* (gs2, t2, s2, f2, sw2, q2) := sl_half fuel delta junk (Jb (2 * fuel' + 1)) lovmax S dorig 1 afmax s1 f1 sw1 q1 in
        if (2 <=? gs2)%Z then Ok (gs2, s2, f2, sw2, q2)
        else if ((t1 =? Z.of_nat S * (2 * Z.of_nat bdim - 1)) && (t2 =? (Z.of_nat S - 1) * (2 * Z.of_nat bdim - 1)))%Z
        then Ok (0%Z, s2, f2, sw2, q2)
        else sl_loop fuel' delta junk Jb lovmax S dorig afmax s2 f2 sw2 q2
  end.
End Cfg.

(** ** hlll(delta,S,nbthreads,lovmax), 48-370 *)
Definition slll (fuel : nat) (delta junk : F) (Jb : nat -> nat -> junk_t (F := F)) (S : nat) (lovmax : Z) (L : slattice F)
  : res (Z * slattice F) :=
  let c := scfg L in
  let q := mkC (nblov (scnt L)) (nbswaps (scnt L)) (vdepth (scnt L) - 1) in
  guard (0 <? S)
  (let afmax := fset_z fp (samax L) in
   let* f0 := sl_householder c (sdorig L) (iB (si L)) (sf L) in
   let* f1 := sl_padR c (sdorig L) afmax f0 in
   let* (r, s, f, sw, q1) := sl_loop c fuel delta junk Jb lovmax S (sdorig L) afmax (si L) f1 (sswaps L) q in
   Ok (r, mkSL c (snorig L) (sdorig L) (samax L) s f sw (mkC (nblov q1) (nbswaps q1) (vdepth q1 + 1)))).

(** ** Constructor, 1934-2037, and init, 1884-1930 *)
Definition max_abs (n d : nat) (A : mat Z) : Z :=
  fold_left (fun m i => fold_left (fun m j => Z.max m (Z.abs (fn A i j))) (seq 0 d) m) (seq 0 n) 0%Z.

Definition pad_dim (d K : nat) : nat := if d mod K =? 0 then 0 else K - d mod K.

Definition new_slattice (J : junk_t (F := F)) (n d : nat) (A : mat Z) (S : nat) (forU : bool) (method : Z) (long_flag : bool) (vd : Z)
  : res (slattice F) :=
  let K := 2 * S in
  guard (0 <? K)
  (let p := pad_dim d K in
   let amax := if p =? 0 then 0%Z else (max_abs n d A * Z.of_nat d)%Z in
   let B := mtab (n + p) (d + p) (fun i j => if (i <? n) && (j <? d) then fn A i j
                                             else if (n <=? i) && (j =? d + (i - n)) then amax else 0%Z) in
   let st := matrix_structure B (n + p) (d + p) in
   let c := mkCfg (n + p) (d + p) forU (d + p) 4294967295%Z method long_flag 1 1000000%Z in
   Ok (mkSL c n d amax
         (mkI B (if forU then id_mat (d + p) else []) (repeat (last st 0) (d + p)))
         (init_f fp J (n + p) (d + p)) (repeat 0%Z (K - 1)) (mkC 0 0 vd))).

(** getbase, 1830-1838 *)
Definition sl_getbase (L : slattice F) : mat Z := mtab (snorig L) (sdorig L) (fn (iB (si L))).
(** getU, 1843-1857 *)
Definition sl_getU (L : slattice F) : mat Z := if ctransf (scfg L) then mtab (cd (scfg L)) (cd (scfg L)) (fn (iU (si L))) else [].

(** rotate(gap_status), 384-404 *)
Definition sl_rotate (g : nat) (L : slattice F) : res (slattice F) :=
  let c := scfg L in
  guard ((1 <=? g) && (g <=? cd c))
   (let B := iB (si L) in
    let vz := col B (g - 1) in
    let B1 := mfold (fun j B => Ok (mtab (cn c) (cd c) (fun i q => if q =? j then fn B i (j - 1) else fn B i q))) (rev (seq 1 (g - 1))) B in
    let* B2 := B1 in
    Ok (mkSL c (snorig L) (sdorig L) (samax L)
         (mkI (mtab (cn c) (cd c) (fun i q => if q =? 0 then nth i vz 0%Z else fn B2 i q)) (iU (si L)) (iS (si L)))
         (sf L) (sswaps L) (scnt L))).

End Slll.
