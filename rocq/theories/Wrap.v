(** * The staged drivers: wrappers.h (hlll<ZT>, slll<mpz_t>), slll-wrap.h (slll_wrap, slll_wrap_gap), block.h (blevel)

    Timers, printing, the final optional check (isreduced on a copy) and ratio (on a copy) are not modelled: they do not
    write the result.  Every object created gets its own uninitialised memory: [W path] for a path that identifies the
    creation.  The arithmetic on machine integers (hlll<long>, hlll<__int128_t>) is that of Z: overflows in the
    reductions themselves are not modelled, the conversions are. *)
From Coq Require Import ZArith Lia List Bool Arith.
From Verif Require Import Base Spec Mat FP Hlll Hlll2 Slll MachInt.
Import ListNotations.

Section Staged.
Context {F G : Type} (fp : fpops F) (gp : fpops G).   (* double / dpe, then long double / ldpe *)
Variables (W : list nat -> junk_t (F := F)) (WG : list nat -> junk_t (F := G)).

(** Lattice L(A, NO_TRANSFORM, method); L.hlll(delta); L.getbase() *)
Definition red (fuel : nat) (delta junk : F) (J : junk_t (F := F)) (n d : nat) (A : mat Z) (method : Z) : res (mat Z) :=
  let* (_, L) := hlll fp fuel delta true junk (new_lattice fp J n d A false method true 0) in Ok (getbase L).
Definition redG (fuel : nat) (delta junk : G) (J : junk_t (F := G)) (n d : nat) (A : mat Z) (method : Z) : res (mat Z) :=
  let* (_, L) := hlll gp fuel delta true junk (new_lattice gp J n d A false method true 0) in Ok (getbase L).

(** the first k columns; [C | the columns k.. of A] *)
Definition firstcols (n k : nat) (A : mat Z) : mat Z := mtab n k (fn A).
Definition append (n k d : nat) (C A : mat Z) : mat Z := mtab n d (fun i j => if j <? k then fn C i j else fn A i j).

(** hlll<mpz_t>, wrappers.h 413-560 (and hlll<long> 46-190, hlll<__int128_t> 226-370: the same stages on the matrix
    converted by matrix_cast, the result converted back); d1 = DIM_PREC_1, d2 = DIM_PREC_2 *)
Definition hlll_stages (fuel : nat) (delta junk : F) (deltaG junkG : G) (d1 d2 n d : nat) (A : mat Z) : res (mat Z) :=
  if d <=? d1 then red fuel delta junk (W [0]) n d (mtab n d (fn A)) 0
  else if d <=? d2 then
    let* C0 := red fuel delta junk (W [0]) n d1 (firstcols n d1 A) 0 in
    red fuel delta junk (W [1]) n d (append n d1 d C0 A) 1
  else
    let* C0 := red fuel delta junk (W [0]) n d1 (firstcols n d1 A) 0 in
    let* C1 := red fuel delta junk (W [1]) n d2 (append n d1 d2 C0 A) 1 in
    redG fuel deltaG junkG (WG [2]) n d (append n d2 d C1 A) 1.

(** with the conversions [cin] (matrix_cast(B,A)) and [cout] (matrix_cast(C, L.getbase())) *)
Definition hlll_wrapper (cin cout : Z -> Z) (fuel : nat) (delta junk : F) (deltaG junkG : G) (d1 d2 n d : nat) (A : mat Z) : res (mat Z) :=
  let* C := hlll_stages fuel delta junk deltaG junkG d1 d2 n d (mtab n d (fun i j => cin (fn A i j))) in
  Ok (mtab n d (fun i j => cout (fn C i j))).
Definition hlll_mpz := hlll_wrapper (fun z => z) (fun z => z).
Definition hlll_long := hlll_wrapper get_si (fun z => z).
Definition hlll_int128 := hlll_wrapper mpz_set_128int mpz_get_128int.

End Staged.

Section Segment.
Context {F : Type} (fp : fpops F) (f0001 f501 fgap f99 : F) (fmul2 : F -> Z -> F).
Variables (W : list nat -> junk_t (F := F)) (Wb : list nat -> nat -> nat -> junk_t (F := F)).
Variables (fuel : nat) (delta junk : F) (Sg : nat) (method : Z).

(** SLattice L(B, S, NO_TRANSFORM, method); gap_status = L.hlll(delta, S, S, 1000000); L.getbase() *)
Definition seg (p : list nat) (n k : nat) (B : mat Z) : res (Z * mat Z) :=
  let* L0 := new_slattice fp (W p) n k B Sg false method true 0 in
  let* (g, L) := slll fp f0001 f501 fgap fmul2 fuel delta junk (Wb p) Sg 1000000 L0 in
  Ok (g, sl_getbase L).

(** slll_wrap_gap, slll-wrap.h 42-105; [depth] bounds the recursion *)
Fixpoint slll_wrap_gap (depth : nat) (p : list nat) (n d : nat) (A : mat Z) (gpos : nat) : res (mat Z) :=
  match depth with
  | O => NoFuel
  | S depth' =>
      guard (gpos <=? d)
      (let* (g, B1) := seg (0 :: p) n gpos (firstcols n gpos A) in
       let* B2 := if (2 <=? g)%Z then slll_wrap_gap depth' (1 :: p) n gpos B1 (Z.to_nat g) else Ok B1 in
       red fp fuel f99 junk (W (2 :: p)) n d (append n gpos d B2 A) method)
  end.

(** slll-wrap.h 183-200: size reduction of the last column (index k-1) of a new object; 1 <= k-1 *)
Definition hh_rv (c : cfg) (s : ist) (i : nat) (f : fst_ F) : res (fst_ F) :=
  let* f1 := householder_r fp c s f i in householder_v fp c f1 i.
Definition last_col (p : list nat) (n k : nat) (B : mat Z) : res (mat Z) :=
  let L := new_lattice fp (W p) n k B false method true 0 in
  let c := lcfg L in
  let* f := mfold (hh_rv c (li L)) (0 :: seq 1 (k - 2)) (lf L) in
  let* (s, f', _) := if (method <? 1)%Z then hsizereduce fp c fuel (li L) f (k - 1) 0 else seysenreduce fp c fuel (li L) f (k - 1) in
  Ok (getbase (mkL c s f' (lc L))).

(** one turn of the loop on k, slll-wrap.h 161-245 *)
Definition wrap_step (n : nat) (A : mat Z) (k : nat) (C : mat Z) : res (mat Z) :=
  let* B := last_col [k; 0] n k (append n (k - 1) k C A) in
  let* (g, B1) := seg [k; 1] n k B in
  if (2 <=? g)%Z then slll_wrap_gap k [k; 2] n k B1 (Z.to_nat g) else Ok B1.

(** slll_wrap, slll-wrap.h 122-260; modelled for dthreshold >= 1 (k >= 2 in the loop) *)
Definition slll_wrap (dthreshold n d : nat) (A : mat Z) : res (mat Z) :=
  let d1 := min d dthreshold in
  let* C := red fp fuel delta junk (W []) n d1 (firstcols n d1 A) method in
  mfold (wrap_step n A) (seq (d1 + 1) (d - d1)) C.
End Segment.

(** slll<mpz_t>, wrappers.h 620-760: the stages of hlll<mpz_t> with slll_wrap *)
Section SegStaged.
Context {F G : Type} (fp : fpops F) (gp : fpops G) (f0001 f501 fgap f99 : F) (fmul2 : F -> Z -> F)
  (g0001 g501 ggap g99 : G) (gmul2 : G -> Z -> G).
Variables (W : nat -> list nat -> junk_t (F := F)) (Wb : nat -> list nat -> nat -> nat -> junk_t (F := F)).
Variables (WG : list nat -> junk_t (F := G)) (WGb : list nat -> nat -> nat -> junk_t (F := G)).
Definition slll_mpz (fuel : nat) (delta junk : F) (deltaG junkG : G) (Sg dthreshold d1 d2 n d : nat) (A : mat Z) : res (mat Z) :=
  let wrap := fun k => slll_wrap fp f0001 f501 fgap f99 fmul2 (W k) (Wb k) fuel delta junk Sg in
  if d <=? d1 then wrap 0 0%Z dthreshold n d A
  else if d <=? d2 then
    let* C0 := wrap 0 0%Z dthreshold n d1 (firstcols n d1 A) in
    wrap 1 1%Z d1 n d (append n d1 d C0 A)
  else
    let* C0 := wrap 0 0%Z dthreshold n d1 (firstcols n d1 A) in
    let* C1 := wrap 1 1%Z d1 n d2 (append n d1 d2 C0 A) in
    slll_wrap gp g0001 g501 ggap g99 gmul2 WG WGb fuel deltaG junkG Sg 1%Z d2 n d (append n d2 d C1 A).
End SegStaged.

(** blevel, block.h 33-80: [B0] is the content of B (resized by the caller).  One object for all the blocks *)
Section Block.
Context {F : Type} (fp : fpops F).
Definition blk_step (fuel : nat) (delta junk : F) (n d : nat) (Ain : mat Z) (bs dec : nat) (k : nat) (st : lattice F * mat Z)
  : res (lattice F * mat Z) :=
  let '(L, B) := st in
  let A := mtab n bs (fun i j => fn Ain i (k * bs + j)) in
  let* (L', A') := if dec <=? k then let* (_, L') := hlll fp fuel delta true junk (assign A L) in Ok (L', getbase L')
                   else Ok (L, A) in
  Ok (L', mtab n d (fun i j => if (k * bs <=? j) && (j <? k * bs + bs) then fn A' i (j - k * bs) else fn B i j)).
Definition blevel (fuel : nat) (delta junk : F) (J : junk_t (F := F)) (n d : nat) (B0 Ain : mat Z) (bs dec : nat) : res (mat Z) :=
  guard (0 <? bs)
  (let* (_, B) := mfold (blk_step fuel delta junk n d Ain bs dec) (seq 0 (d / bs))
                    (new_lattice fp J n bs (mtab n bs (fun _ _ => 1%Z)) false 0 true 0, mtab n d (fn B0)) in
   Ok B).
End Block.
