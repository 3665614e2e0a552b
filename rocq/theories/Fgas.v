(** * Fgas: decomposition of real generating sets (src/decomp.h, src/decomp.cc)

    F is d x n (type RT), Y the d x dec "residue" (RT), W and U are n x n integer matrices (mpz_t; for ZT = long the
    model is exact as long as no entry overflows), R is d x n, V is d x d (type FT).  Accesses outside these ranges are
    [UB].  Both floating-point types are arbitrary: [fpops] (FP.v) for FT, [rtops] below for RT. *)
From Coq Require Import ZArith Lia List Bool Arith.
From Verif Require Import Base Spec Mat FP Hlll IntSteps HlllInt LinDep Structure MachInt.
From Verif Require Import ZFgas.
Import ListNotations.

(** the operations of FP_NR<RT> *)
Record rtops (F T : Type) := mkRT {
  tzero : T; tadd : T -> T -> T; tsub : T -> T -> T; tmul : T -> T -> T;
  taddmul : T -> T -> T -> T;       (* r.addmul(a,b): r + a b *)
  tsubmul : T -> T -> T -> T;
  tdiv : T -> T -> T;
  tabs : T -> T;
  tgt : T -> T -> bool;             (* a.cmp(b) > 0 *)
  tgap : T -> bool;                 (* a.cmp(confidence_gap) < 0 *)
  tofz : Z -> T;                    (* set_z *)
  tfp : T -> F }.                   (* R.setcol(., F.getcol(.), ..): conversion to FT *)
Arguments tzero {F T}. Arguments tadd {F T}. Arguments tsub {F T}. Arguments taddmul {F T}. Arguments tsubmul {F T}.
Arguments tmul {F T}. Arguments tdiv {F T}. Arguments tabs {F T}. Arguments tgt {F T}. Arguments tgap {F T}. Arguments tofz {F T}. Arguments tfp {F T}.

(** exact part of the object (F, Y, W, U) and floating-point part (R, V, normB2, ldim, nblov), decomp.h 43-79 *)
Record gex (T : Type) := mkX { xF : mat T; xY : mat T; xW : mat Z; xU : mat Z }.
Arguments mkX {T}. Arguments xF {T}. Arguments xY {T}. Arguments xW {T}. Arguments xU {T}.
Record fgas (F T : Type) := mkG { gx : gex T; gR : mat F; gV : mat F; gN : list F; gldim : nat; gnblov : Z }.
Arguments mkG {F T}. Arguments gx {F T}. Arguments gR {F T}. Arguments gV {F T}. Arguments gN {F T}.
Arguments gldim {F T}. Arguments gnblov {F T}.

Section Model.
Context {F T : Type} (fp : fpops F) (rt : rtops F T).
Variables (d n dec : nat) (transf : bool).
Variable gap : F -> bool.      (* tmp1.cmp(confidence_gap) < 0 *)
Variable epsilon : T.
Variable ubound : Z.           (* getprec_fgas() - shiftU, unsigned *)
Notation fz := (fzero fp).
Notation tz := (tzero rt).

(** "(transf) || (dec == 0)": U is maintained *)
Definition keepU : bool := transf || (dec =? 0).

Definition set_gx (v : gex T) (z : fgas F T) : fgas F T := mkG v (gR z) (gV z) (gN z) (gldim z) (gnblov z).
Definition set_gR (v : mat F) (z : fgas F T) : fgas F T := mkG (gx z) v (gV z) (gN z) (gldim z) (gnblov z).
Definition set_gV (v : mat F) (z : fgas F T) : fgas F T := mkG (gx z) (gR z) v (gN z) (gldim z) (gnblov z).
Definition set_gN (v : list F) (z : fgas F T) : fgas F T := mkG (gx z) (gR z) (gV z) v (gldim z) (gnblov z).
Definition set_gl (v : nat) (z : fgas F T) : fgas F T := mkG (gx z) (gR z) (gV z) (gN z) v (gnblov z).
Definition inc_gn (z : fgas F T) : fgas F T := mkG (gx z) (gR z) (gV z) (gN z) (gldim z) (gnblov z + 1)%Z.

Definition rget (M : mat F) (i j : nat) : res F := guard ((i <? d) && (j <? n)) (Ok (mget fz M i j)).
Definition yget (M : mat T) (i j : nat) : res T := guard ((i <? d) && (j <? dec)) (Ok (mget tz M i j)).

(** ** Elementary operations on the exact part *)

(** Y.addrow / subrow / addmulrow, mat.h 483-499: row a := f(row a, row b) *)
Definition yrow (f : T -> T -> T) (Y : mat T) (a b : nat) : res (mat T) :=
  guard ((a <? d) && (b <? d))
    (Ok (mtab d dec (fun i j => if i =? a then f (mget tz Y a j) (mget tz Y b j) else mget tz Y i j))).
(** Y.rowswap, mat.h 472-480 *)
Definition yswap (Y : mat T) (a b : nat) : res (mat T) :=
  guard ((a <? d) && (b <? d))
    (Ok (mtab d dec (fun i j => mget tz Y (if i =? a then b else if i =? b then a else i) j))).

(** the column operation for the integer xz, 470-533: F and U, the inverse transposed on W, Y *)
Definition xcol (kappa i : nat) (xz : Z) (z : gex T) : res (gex T) :=
  guard ((i <? n) && (kappa <? n))
  (let ff := if (xz =? -1)%Z then tadd rt else if (xz =? 1)%Z then tsub rt else (fun v w => tsubmul rt v w (tofz rt xz)) in
   let fy := if (xz =? -1)%Z then tsub rt else if (xz =? 1)%Z then tadd rt else (fun v w => taddmul rt v w (tofz rt xz)) in
   let* Y' := (if (dec <=? i) && (0 <? dec) then yrow fy (xY z) (i - dec) (kappa - dec) else Ok (xY z)) in
   Ok (mkX (colop tz ff 0 d (xF z) kappa i) Y'
           (colop 0%Z (redf (- xz)) 0 n (xW z) i kappa)
           (if keepU then colop 0%Z (redf xz) 0 n (xU z) kappa i else xU z))).

(** F.colswap(p,q), W, U, Y.rowswap(p-dec,q-dec): 209-222, 354-362, 394-401; a negative row index is UB *)
Definition xswap (p q : nat) (z : gex T) : res (gex T) :=
  guard ((p <? n) && (q <? n))
  (let* Y' := (if 0 <? dec then guard ((dec <=? p) && (dec <=? q)) (yswap (xY z) (p - dec) (q - dec)) else Ok (xY z)) in
   Ok (mkX (colswap (xF z) p q) Y' (colswap (xW z) p q) (if keepU then colswap (xU z) p q else xU z))).

(** ** householder(kappa), 571-640 (same as decompz.cc) *)
Definition gh_step (kappa k : nat) (z : fgas F T) : res (fgas F T) :=
  guard ((k <? d) && (kappa <? n))
  (let v := skipn k (col (gV z) k) in
   let w := skipn k (col (gR z) kappa) in
   let* a := scalarprod fp v w (d - k) in
   Ok (set_gR (lupd (gR z) kappa
         (splice k (map (fun i => fsubmul fp (nth i w fz) (nth i v fz) a) (seq 0 (d - k))) (col (gR z) kappa))) z)).

Definition ghouseholder (kappa : nat) (z : fgas F T) : res (fgas F T) :=
  guard (kappa <? n)
  (let z1 := set_gR (lupd (gR z) kappa (splice 0 (map (fun i => tfp rt (mget tz (xF (gx z)) i kappa)) (seq 0 d)) (col (gR z) kappa))) z in
   let* q := fp_norm_sq fp (col (gR z1) kappa) d in
   let z2 := set_gN (lupd (gN z1) kappa q) z1 in
   if kappa <? d - gldim z2 then
     let* z3 := mfold (gh_step kappa) (seq 0 kappa) z2 in
     let* w0 := rget (gR z3) kappa kappa in
     let* nr := fp_norm fp (skipn kappa (col (gR z3) kappa)) (d - kappa) in
     let '(s, rkk) := if fle fp fz w0 then (nr, fneg fp nr) else (fneg fp nr, nr) in
     let z4 := set_gR (mset (gR z3) kappa kappa rkk) z3 in
     let w := fadd fp w0 s in
     let s2 := fsqrt fp (fmul fp s w) in
     let vcol := map (fun i => if i =? kappa then fdiv fp w s2
                               else if kappa <? i then fdiv fp (mget fz (gR z4) i kappa) s2
                               else mget fz (gV z4) i kappa) (seq 0 d) in
     let rcol := map (fun i => if kappa <? i then fz else mget fz (gR z4) i kappa) (seq 0 d) in
     Ok (set_gR (lupd (gR z4) kappa rcol) (set_gV (lupd (gV z4) kappa vcol) z4))
   else mfold (gh_step kappa) (seq 0 (d - gldim z2)) z2).

(** ** hsizereduce(kappa), 428-558 *)
Definition gelim (kappa i : nat) (st : fgas F T * bool) : res (fgas F T * bool) :=
  let '(z, somedone) := st in
  let* rik := rget (gR z) i kappa in
  let* rii := rget (gR z) i i in
  let x := frnd fp (fdiv fp rik rii) in
  if fnz fp x then
    let xz := fset_f fp x in
    let rop := if (xz =? -1)%Z then fadd fp else if (xz =? 1)%Z then fsub fp else (fun v w => fsubmul fp v x w) in
    let* x' := xcol kappa i xz (gx z) in
    Ok (set_gx x' (set_gR (colop fz rop 0 i (gR z) kappa i) z), true)
  else Ok (z, somedone).

Fixpoint ghs_loop (fuel : nat) (kappa : nat) (z : fgas F T) : res (fgas F T) :=
  match fuel with
  | O => NoFuel
  | S fuel' =>
      let* (z1, somedone) := mfold (gelim kappa) (elim_list d kappa (gldim z)) (z, false) in
      if somedone then
        let t := fmul fp (f001 fp) (nth kappa (gN z1) fz) in
        let* z2 := ghouseholder kappa z1 in
        if flt fp (nth kappa (gN z2) fz) t then ghs_loop fuel' kappa z2 else Ok z2
      else Ok z1
  end.

Definition ghsizereduce (fuel : nat) (kappa : nat) (z : fgas F T) : res (fgas F T) :=
  let* z1 := ghouseholder kappa z in ghs_loop fuel kappa z1.

(** ** decomp, 69-415 *)

(** max |Y(i,j)| over the rows [rows] starting from |Y(r0,0)| (109-115, 172-176) or from 0 (133-138, 285-290) *)
Definition ymax (Y : mat T) (rows : list nat) (m0 : T) : res T :=
  mfold (fun i m => mfold (fun j m => let* y := yget Y i j in
                                      let a := tabs rt y in Ok (if tgt rt a m then a else m)) (seq 0 dec) m) rows m0.

(** minimum of |R(i,i)| for i = dec .. hi-1, 119-124 and 245-250 *)
Definition gmindiag (R : mat F) (hi : nat) : res F :=
  let* r0 := rget R dec dec in
  mfold (fun i m => let* r := rget R i i in
                    let t := fabs fp r in Ok (if flt fp t m then t else m))
        (seq (dec + 1) (hi - (dec + 1))) (fabs fp r0).
(** maximum of |R(i,i)|, 257-261 *)
Definition gmaxdiag (R : mat F) (hi : nat) : res F :=
  let* r0 := rget R dec dec in
  mfold (fun i m => let* r := rget R i i in
                    let t := fabs fp r in Ok (if fcmp1 fp t m then t else m))
        (seq (dec + 1) (hi - (dec + 1))) (fabs fp r0).

(** swap position in the left part, 331-344 *)
Definition gleft (R : mat F) (g : list F) (hi : nat) : res nat :=
  guard (0 <? length g)
  (let* r0 := rget R dec dec in
   let* (m, _) :=
     mfold (fun j st => let '(m, t1) := st in
              guard (j <? length g)
              (let* r := rget R j j in
               let t2 := fabs fp (fmul fp (nth j g fz) r) in
               Ok (if flt fp t1 t2 then (j, t2) else (m, t1))))
           (seq (dec + 1) (hi - (dec + 1))) (dec, fabs fp (fmul fp (nth 0 g fz) r0)) in
   Ok m).

(** in the right part, 380-392 *)
Definition gright (R : mat F) (row lo hi : nat) : res nat :=
  let* r0 := rget R row lo in
  let* (m, _) :=
    mfold (fun j st => let '(m, t1) := st in
             let* r := rget R row j in
             let t2 := fabs fp r in
             Ok (if flt fp t1 t2 then (j, t2) else (m, t1)))
          (seq (lo + 1) (hi - (lo + 1))) (lo, fabs fp r0) in
  Ok m.

(** bit size of the first two rows of U, 311-314; with n = 1 row 1 does not exist *)
Definition ubits (U : mat Z) : res Z :=
  guard (2 <=? n)
    (Ok (fold_left (fun l i => fold_left (fun l j => Z.max l (sizeinbase2 (mget 0%Z U i j))) (seq 0 n) l) [0; 1] 0%Z)).

(** the two references of the gap test: maxYold (dec > 0) or diagold (dec = 0); the other one is unused *)
Fixpoint gloop (fuel : nat) (g : list F) (target targetsize : Z) (z0 : fgas F T) (maxh : nat) (diagold : F) (maxYold : T)
  : res (Z * fgas F T) :=
  match fuel with
  | O => NoFuel
  | S fuel' =>
      let z := inc_gn z0 in
      guard (gldim z <? d)
      (let last := d - gldim z - 1 in
       (* 171-194 *)
       let* (hit, maxY) :=
         (if 0 <? dec then
            let* y0 := yget (xY (gx z)) last 0 in
            let* mY := ymax (xY (gx z)) [last] (tabs rt y0) in
            Ok (tgap rt (tdiv rt mY maxYold), mY)
          else
            let* rl := rget (gR z) last last in
            Ok (gap (fabs fp (fdiv fp rl diagold)), maxYold)) in
       (* 205-226 *)
       let* z1 :=
         (if hit then
            let* z' := (if (Z.of_nat maxh <? Z.of_nat n - Z.of_nat (gldim z) - 1)%Z
                        then let* x' := xswap maxh (n - gldim z - 1) (gx z) in Ok (set_gx x' z) else Ok z) in
            Ok (set_gl (gldim z' + 1) z')
          else Ok z) in
       (* 233 *)
       if (target <=? Z.of_nat (gldim z1))%Z then Ok (0%Z, z1)
       else
         let ld := gldim z1 in
         (* 240-251 *)
         let* diag' := (if 0 <? dec then Ok diagold else gmindiag (gR z1) (d - ld - 1)) in
         (* 257-279: bit size of 1 / max diag *)
         let* mx := gmaxdiag (gR z1) (d - ld) in
         let rb := sizeinbase2 (fset_f fp (fdiv fp (fone fp) mx)) in
         if (targetsize <? rb)%Z then Ok ((-1)%Z, z1)
         else
         (* 284-308 *)
         let* exhausted := (if 0 <? dec then let* r1 := ymax (xY (gx z1)) (seq 0 d) tz in Ok (tgt rt epsilon r1) else Ok false) in
         if exhausted then Ok ((-1)%Z, z1)
         else
         (* 310-326 *)
         let* large := (if keepU then let* l := ubits (xU (gx z1)) in Ok (ubound <? l)%Z else Ok false) in
         if large then Ok ((-1)%Z, z1)
         else
         let* m := gleft (gR z1) g (d - ld) in
         if (Z.of_nat m <? Z.of_nat d - Z.of_nat ld - 1)%Z then
           (* 350-366 *)
           let* x2 := xswap m (m + 1) (gx z1) in
           let* z3 := mfold (ghsizereduce fuel) (seq m (d - ld - m)) (set_gx x2 z1) in
           gloop fuel' g target targetsize z3 m diag' maxY
         else
           (* 378-407 *)
           let* z2 := mfold (ghsizereduce fuel) (seq (d - ld) (n - ld - (d - ld))) z1 in
           guard (ld <? d)
           (let* m2 := gright (gR z2) (d - ld - 1) (d - ld) (n - ld) in
            let* x3 := xswap (d - ld - 1) m2 (gx z2) in
            let* z4 := ghsizereduce fuel (d - ld - 1) (set_gx x3 z2) in
            gloop fuel' g target targetsize z4 m2 diag' maxY))
  end.

(** decomp(gamma, targetdim, targetsize), 69-415; the initial tests 96-152 *)
Definition gdecomp (fuel : nat) (gamma : F) (target targetsize : Z) (z : fgas F T) : res (Z * fgas F T) :=
  guard (0 <? d)
  (let g := fold_left (fun g i => g ++ [fmul fp (nth (i - 1) g fz) gamma]) (seq 1 (d - 1)) [gamma] in
   let* z1 := mfold (ghsizereduce fuel) (seq 0 n) z in
   if 0 <? dec then
     let* y0 := yget (xY (gx z1)) 0 0 in
     let* mY := ymax (xY (gx z1)) (seq 0 (d - gldim z1)) (tabs rt y0) in
     let* r1 := ymax (xY (gx z1)) (seq 0 d) tz in
     if tgt rt epsilon r1 then Ok ((-1)%Z, z1)
     else gloop fuel g target targetsize z1 dec fz mY
   else
     let* diag := gmindiag (gR z1) d in
     gloop fuel g target targetsize z1 dec diag tz).

(** constructors and init, 882-1012: [A] the d x n input, [res] the residue (the first dec columns of the input for the
    first constructor).  J: uninitialised floating-point memory. *)
Definition new_fgas (J : junk_t (F := F)) (A res : mat T) : fgas F T :=
  mkG (mkX (mtab d n (fun i j => mget tz A i j)) (if 0 <? dec then mtab d dec (fun i j => mget tz res i j) else [])
           (id_mat n) (if keepU then id_mat n else []))
      (mtab d n (jR J)) (mtab d d (jV J)) (map (jnB2 J) (seq 0 n)) 0 0%Z.

(** set(Finput,res), 1043-1067: W.resize(n,n) and U.resize(rowU,n) keep the entries (mat.h 121-136), only the
    diagonals are overwritten; ldim and nblov are kept *)
Definition gset_ (A res : mat T) (z : fgas F T) : fgas F T :=
  let dg (M : mat Z) := mtab n n (fun i j => if i =? j then 1%Z else fn M i j) in
  set_gx (mkX (mtab d n (fun i j => mget tz A i j)) (if 0 <? dec then mtab d dec (fun i j => mget tz res i j) else xY (gx z))
             (dg (xW (gx z))) (if keepU then dg (xU (gx z)) else xU (gx z))) z.

(** getV 806-813, getU 783-802 (without transf: a message and an n x n matrix of zeros), getfgas 870-873 *)
Definition ggetV (z : fgas F T) : mat Z := mtab n n (fn (xW (gx z))).
Definition ggetU (z : fgas F T) : mat Z := if transf then mtab n n (fn (xU (gx z))) else mtab n n (fun _ _ => 0%Z).
Definition ggetfgas (z : fgas F T) : mat T := mtab d n (fun i j => mget tz (xF (gx z)) i j).

(** ** The run is a sequence of elementary operations *)
Inductive xstep : gex T -> gex T -> Prop :=
| step_col kappa i xz x x' : i < kappa -> xcol kappa i xz x = Ok x' -> xstep x x'
| step_swap p q x x' : xswap p q x = Ok x' -> xstep x x'.
Inductive xsteps : gex T -> gex T -> Prop :=
| xs_nil x : xsteps x x
| xs_cons x y z : xsteps x y -> xstep y z -> xsteps x z.

Lemma xsteps_trans x y z : xsteps x y -> xsteps y z -> xsteps x z.
Proof. intros H1 H2. revert H1. induction H2 as [|a b c H2 IH H3]; intros H1; [exact H1|]. eapply xs_cons; [apply IH; exact H1|exact H3]. Qed.
Lemma xsteps_one x y : xstep x y -> xsteps x y.
Proof. intros H. econstructor; [constructor|exact H]. Qed.

Definition same_x (z z' : fgas F T) : Prop := gx z' = gx z /\ gldim z' = gldim z.
Lemma same_x_trans a b c : same_x a b -> same_x b c -> same_x a c.
Proof. intros [A1 A2] [B1 B2]. split; congruence. Qed.

Lemma mfold_same_x {S : Type} (f : S -> fgas F T -> res (fgas F T)) l : (forall a z z', f a z = Ok z' -> same_x z z') ->
  forall z z', mfold f l z = Ok z' -> same_x z z'.
Proof.
  intros Hf. induction l as [|a l IH]; intros z z' H; cbn [mfold] in H.
  - injection H as <-. split; reflexivity.
  - binv H. eapply same_x_trans; eauto.
Qed.

Lemma gh_step_same kappa k z z' : gh_step kappa k z = Ok z' -> same_x z z'.
Proof. unfold gh_step. intros H. binv H. binv H. injection H as <-. repeat split. Qed.

Lemma ghouseholder_same kappa z z' : ghouseholder kappa z = Ok z' -> same_x z z'.
Proof.
  unfold ghouseholder. intros H. binv H. binv H.
  match type of H with context [if ?b then _ else _] => destruct b end.
  - binv H. apply mfold_same_x in Ha0; [|intros; eapply gh_step_same; eauto]. binv H. binv H.
    match type of H with context [if ?b then _ else _] => destruct b end; injection H as <-;
      (eapply same_x_trans; [|eapply same_x_trans; [exact Ha0|]]; repeat split).
  - apply mfold_same_x in H; [|intros; eapply gh_step_same; eauto].
    eapply same_x_trans; [|exact H]. repeat split.
Qed.

Lemma gelims_steps kappa l : (forall i, In i l -> i < kappa) -> forall z b z' b',
  mfold (gelim kappa) l (z, b) = Ok (z', b') -> xsteps (gx z) (gx z') /\ gldim z' = gldim z.
Proof.
  induction l as [|i l IH]; intros Hl z b z' b' H; cbn [mfold] in H.
  - injection H as <- _. split; [constructor|reflexivity].
  - binv H. destruct a as [z1 b1].
    assert (E : xsteps (gx z) (gx z1) /\ gldim z1 = gldim z).
    { unfold gelim in Ha. binv Ha. binv Ha. destruct (fnz fp _).
      - binv Ha. injection Ha as <- _. cbn. split; [|reflexivity].
        apply xsteps_one. eapply step_col; [apply Hl; now left|eassumption].
      - injection Ha as <- _. split; [constructor|reflexivity]. }
    apply IH in H; [|intros j Hj; apply Hl; now right]. destruct E as [E1 E2], H as [H1 H2].
    split; [eapply xsteps_trans; eauto|congruence].
Qed.

Lemma ghs_loop_steps fuel kappa : forall z z', ghs_loop fuel kappa z = Ok z' -> xsteps (gx z) (gx z') /\ gldim z' = gldim z.
Proof.
  induction fuel as [|fuel IH]; intros z z' H; cbn [ghs_loop] in H; [discriminate|].
  binv H. destruct a as [z1 sd]. apply gelims_steps in Ha; [|intros i Hi; eapply elim_list_lt; eauto].
  destruct Ha as [A1 A2]. destruct sd.
  - binv H. apply ghouseholder_same in Ha as [B1 B2]. rewrite <- B1 in A1.
    destruct (flt fp _ _).
    + apply IH in H as [H1 H2]. split; [eapply xsteps_trans; eauto|congruence].
    + injection H as <-. split; [exact A1|congruence].
  - injection H as <-. auto.
Qed.

Lemma ghsizereduce_steps fuel kappa z z' : ghsizereduce fuel kappa z = Ok z' -> xsteps (gx z) (gx z') /\ gldim z' = gldim z.
Proof.
  unfold ghsizereduce. intros H. binv H. apply ghouseholder_same in Ha as [A1 A2].
  apply ghs_loop_steps in H as [H1 H2]. rewrite A1 in H1. split; [exact H1|congruence].
Qed.

Lemma greds_steps fuel l : forall z z', mfold (ghsizereduce fuel) l z = Ok z' -> xsteps (gx z) (gx z') /\ gldim z' = gldim z.
Proof.
  induction l as [|a l IH]; intros z z' H; cbn [mfold] in H.
  - injection H as <-. split; [constructor|reflexivity].
  - binv H. apply ghsizereduce_steps in Ha as [A1 A2]. apply IH in H as [H1 H2].
    split; [eapply xsteps_trans; eauto|congruence].
Qed.

(** when 0 is returned the target dimension is reached *)
Lemma gloop_steps fuel g target ts : forall z maxh dg my r z',
  gloop fuel g target ts z maxh dg my = Ok (r, z') ->
  xsteps (gx z) (gx z') /\ ((r = 0%Z /\ (target <= Z.of_nat (gldim z'))%Z) \/ r = (-1)%Z) /\ gldim z' <= d.
Proof.
  induction fuel as [|fuel IH]; intros z maxh dg my r z' H; cbn [gloop] in H; [discriminate|].
  cbv zeta in H. apply guard_Ok in H as [GL H]. apply Nat.ltb_lt in GL. binv H. destruct a as [hit mY]. clear Ha. binv H.
  assert (I1 : xsteps (gx z) (gx a) /\ gldim a <= d).
  { cbn [inc_gn gldim] in GL. destruct hit.
    - binv Ha. injection Ha as <-. cbn [set_gl gx gldim]. destruct (_ <? _)%Z.
      + binv Ha0. injection Ha0 as <-. cbn [set_gx gx gldim inc_gn]. split; [|lia]. apply xsteps_one. eapply step_swap. exact Ha.
      + injection Ha0 as <-. cbn [inc_gn gldim]. split; [constructor|lia].
    - injection Ha as <-. cbn [inc_gn gldim]. split; [constructor|lia]. }
  destruct I1 as [I1 DL].
  clear Ha. destruct (Z.leb_spec target (Z.of_nat (gldim a))); [injection H as <- <-; auto|].
  binv H. binv H. destruct (_ <? _)%Z; [injection H as <- <-; auto|].
  binv H. destruct a2; [injection H as <- <-; auto|].
  binv H. destruct a2; [injection H as <- <-; auto|].
  binv H. destruct (_ <? _)%Z.
  - binv H. binv H.
    match goal with X : mfold (ghsizereduce _) _ _ = Ok _ |- _ => apply greds_steps in X as [X _]; cbn [set_gx gx] in X end.
    apply IH in H as [H1 H2]. split; [|exact H2].
    eapply xsteps_trans; [exact I1|]. eapply xsteps_trans; [apply xsteps_one; eapply step_swap; eassumption|].
    eapply xsteps_trans; eassumption.
  - binv H. apply guard_Ok in H as [_ H]. binv H. binv H. binv H.
    match goal with X : mfold (ghsizereduce _) _ _ = Ok _ |- _ => apply greds_steps in X as [X _] end.
    match goal with X : ghsizereduce _ _ _ = Ok _ |- _ => apply ghsizereduce_steps in X as [X _]; cbn [set_gx gx] in X end.
    apply IH in H as [H1 H2]. split; [|exact H2].
    eapply xsteps_trans; [exact I1|]. eapply xsteps_trans; [eassumption|].
    eapply xsteps_trans; [apply xsteps_one; eapply step_swap; eassumption|].
    eapply xsteps_trans; eassumption.
Qed.

Lemma gdecomp_steps fuel gamma target ts z r z' : gdecomp fuel gamma target ts z = Ok (r, z') ->
  xsteps (gx z) (gx z') /\ ((r = 0%Z /\ (target <= Z.of_nat (gldim z'))%Z /\ gldim z' <= d) \/ r = (-1)%Z).
Proof.
  unfold gdecomp. intros H. apply guard_Ok in H as [_ H]. binv H. apply greds_steps in Ha as [A1 _].
  destruct (0 <? dec).
  - binv H. binv H. binv H. destruct (tgt rt _ _).
    + injection H as <- <-. auto.
    + apply gloop_steps in H as (H1 & H2 & H3). split; [eapply xsteps_trans; eauto|]. destruct H2 as [[]|]; auto.
  - binv H. apply gloop_steps in H as (H1 & H2 & H3). split; [eapply xsteps_trans; eauto|]. destruct H2 as [[]|]; auto.
Qed.

End Model.
