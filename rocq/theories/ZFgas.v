(** * ZFgas: decomposition of integer generating sets (src/decompz.h, src/decompz.cc), ZT = mpz_t

    F is d x n, U and W are n x n, R is d x n, V is d x d (init 672-720).  Matrix and vector
    accesses outside these ranges are [UB].  The floating-point type is arbitrary (FP.v). *)
From Coq Require Import ZArith Lia List Bool Arith.
From Verif Require Import Base Spec Mat FP Hlll IntSteps HlllInt LinDep Structure.
Import ListNotations.

(** members of the class that decomp changes, decompz.h 42-66 *)
Record zfg (F : Type) := mkZ {
  zF : mat Z; zU : mat Z; zW : mat Z;
  zR : mat F; zV : mat F; zN : list F;      (* R, V, normB2 *)
  zldim : nat; znblov : Z }.
Arguments mkZ {F}. Arguments zF {F}. Arguments zU {F}. Arguments zW {F}. Arguments zR {F}.
Arguments zV {F}. Arguments zN {F}. Arguments zldim {F}. Arguments znblov {F}.

Section Model.
Context {F : Type} (fp : fpops F).
Variables (d n dec : nat) (transf : bool).
Variable gap : F.              (* confidence_gap, compared with cmp(double) *)
Notation fz := (fzero fp).

Definition set_zR v (z : zfg F) := mkZ (zF z) (zU z) (zW z) v (zV z) (zN z) (zldim z) (znblov z).
Definition set_zV v (z : zfg F) := mkZ (zF z) (zU z) (zW z) (zR z) v (zN z) (zldim z) (znblov z).
Definition set_zN v (z : zfg F) := mkZ (zF z) (zU z) (zW z) (zR z) (zV z) v (zldim z) (znblov z).
Definition set_int f u w (z : zfg F) := mkZ f u w (zR z) (zV z) (zN z) (zldim z) (znblov z).
Definition set_ldim v (z : zfg F) := mkZ (zF z) (zU z) (zW z) (zR z) (zV z) (zN z) v (znblov z).
Definition inc_nblov (z : zfg F) := mkZ (zF z) (zU z) (zW z) (zR z) (zV z) (zN z) (zldim z) (znblov z + 1)%Z.

(** R.get(i,j) *)
Definition zget (M : mat F) (i j : nat) : res F := guard ((i <? d) && (j <? n)) (Ok (mget fz M i j)).

(** one reflector applied to the current column: the bodies of the loops 436-442, 478-484 *)
Definition zh_step (kappa k : nat) (z : zfg F) : res (zfg F) :=
  guard ((k <? d) && (kappa <? n))
  (let v := skipn k (col (zV z) k) in
   let w := skipn k (col (zR z) kappa) in
   let* a := scalarprod fp v w (d - k) in
   Ok (set_zR (lupd (zR z) kappa
         (splice k (map (fun i => fsubmul fp (nth i w fz) (nth i v fz) a) (seq 0 (d - k))) (col (zR z) kappa))) z)).

(** householder(kappa), 418-489 *)
Definition zhouseholder (kappa : nat) (z : zfg F) : res (zfg F) :=
  guard (kappa <? n)
  (let z1 := set_zR (lupd (zR z) kappa (splice 0 (map (fun i => fset_z fp (nth i (col (zF z) kappa) 0%Z)) (seq 0 d)) (col (zR z) kappa))) z in
   let* q := fp_norm_sq fp (col (zR z1) kappa) d in
   let z2 := set_zN (lupd (zN z1) kappa q) z1 in
   if kappa <? d - zldim z2 then
     let* z3 := mfold (zh_step kappa) (seq 0 kappa) z2 in
     let* w0 := zget (zR z3) kappa kappa in
     let* nr := fp_norm fp (skipn kappa (col (zR z3) kappa)) (d - kappa) in
     let '(s, rkk) := if fle fp fz w0 then (nr, fneg fp nr) else (fneg fp nr, nr) in
     let z4 := set_zR (mset (zR z3) kappa kappa rkk) z3 in
     let w := fadd fp w0 s in
     let s2 := fsqrt fp (fmul fp s w) in
     let vcol := map (fun i => if i =? kappa then fdiv fp w s2
                               else if kappa <? i then fdiv fp (mget fz (zR z4) i kappa) s2
                               else mget fz (zV z4) i kappa) (seq 0 d) in
     let rcol := map (fun i => if kappa <? i then fz else mget fz (zR z4) i kappa) (seq 0 d) in
     Ok (set_zR (lupd (zR z4) kappa rcol) (set_zV (lupd (zV z4) kappa vcol) z4))
   else mfold (zh_step kappa) (seq 0 (d - zldim z2)) z2).

(** the column operation for the integer xz, 331-377: subcol, addcol, submulcol on F (d rows) and
    U (n rows), the inverse transposed operation on W *)
Definition zcol (kappa i : nat) (xz : Z) (z : zfg F) : zfg F :=
  set_int (colop 0%Z (redf xz) 0 d (zF z) kappa i)
          (if transf then colop 0%Z (redf xz) 0 n (zU z) kappa i else zU z)
          (if transf then zW z else colop 0%Z (redf (- xz)) 0 n (zW z) i kappa) z.

(** one index of the elimination loop, 321-380; R is updated on i rows *)
Definition zelim (kappa i : nat) (st : zfg F * bool) : res (zfg F * bool) :=
  let '(z, somedone) := st in
  let* rik := zget (zR z) i kappa in
  let* rii := zget (zR z) i i in
  let x := frnd fp (fdiv fp rik rii) in
  if fnz fp x then
    let xz := fset_f fp x in
    let rop := if (xz =? -1)%Z then fadd fp else if (xz =? 1)%Z then fsub fp else (fun v w => fsubmul fp v x w) in
    Ok (zcol kappa i xz (set_zR (colop fz rop 0 i (zR z) kappa i) z), true)
  else Ok (z, somedone).

(** indices elim_index, ..., 0 with elim_index = min(kappa-1, d-1-ldim), 318; none when it is negative *)
Definition elim_list (kappa ldim : nat) : list nat :=
  if (kappa =? 0) || (d <=? ldim) then [] else down (min (kappa - 1) (d - 1 - ldim)) 0.

(** the while loop of hsizereduce, 312-400 *)
Fixpoint zhs_loop (fuel : nat) (kappa : nat) (z : zfg F) : res (zfg F) :=
  match fuel with
  | O => NoFuel
  | S fuel' =>
      let* (z1, somedone) := mfold (zelim kappa) (elim_list kappa (zldim z)) (z, false) in
      if somedone then
        let t := fmul fp (f001 fp) (nth kappa (zN z1) fz) in
        let* z2 := zhouseholder kappa z1 in
        if flt fp (nth kappa (zN z2) fz) t then zhs_loop fuel' kappa z2 else Ok z2
      else Ok z1
  end.

(** hsizereduce(kappa), 288-404 *)
Definition zhsizereduce (fuel : nat) (kappa : nat) (z : zfg F) : res (zfg F) :=
  let* z1 := zhouseholder kappa z in zhs_loop fuel kappa z1.

(** F.colswap(p,q) with U or W, 141-146, 219-224, 257-262 *)
Definition zswap (p q : nat) (z : zfg F) : res (zfg F) :=
  guard ((p <? n) && (q <? n))
  (Ok (set_int (colswap (zF z) p q) (if transf then colswap (zU z) p q else zU z)
               (if transf then zW z else colswap (zW z) p q) z)).

(** minimum of |R(i,i)|, 92-97 and 165-170 *)
Definition zmindiag (R : mat F) (hi : nat) : res F :=
  let* r0 := zget R dec dec in
  mfold (fun i m => let* r := zget R i i in
                    let t := fabs fp r in Ok (if flt fp t m then t else m))
        (seq (dec + 1) (hi - (dec + 1))) (fabs fp r0).

(** swap position in the left part, 176-191; [g] has d entries *)
Definition zleft (R : mat F) (g : list F) (hi : nat) : res nat :=
  guard (0 <? length g)
  (let* r0 := zget R dec dec in
   let* (m, _) :=
     mfold (fun j st => let '(m, t1) := st in
              guard (j <? length g)
              (let* r := zget R j j in
               let t2 := fabs fp (fmul fp (nth j g fz) r) in
               Ok (if flt fp t1 t2 then (j, t2) else (m, t1))))
           (seq (dec + 1) (hi - (dec + 1))) (dec, fabs fp (fmul fp (nth 0 g fz) r0)) in
   Ok m).

(** swap position in the right part, 243-255; row = d - ldim - 1 *)
Definition zright (R : mat F) (row lo hi : nat) : res nat :=
  let* r0 := zget R row lo in
  let* (m, _) :=
    mfold (fun j st => let '(m, t1) := st in
             let* r := zget R row j in
             let t2 := fabs fp r in
             Ok (if flt fp t1 t2 then (j, t2) else (m, t1)))
          (seq (lo + 1) (hi - (lo + 1))) (lo, fabs fp r0) in
  Ok m.

(** main loop, 106-276; [pk] = prevkappa ([None] for -1), [pR] = prevR (d entries, uninitialised at
    first).  Result: returned value and object. *)
Fixpoint zloop (fuel : nat) (g : list F) (target : Z) (z0 : zfg F) (maxh : nat) (diagold : F)
         (pk : option nat) (pR : list F) : res (Z * zfg F) :=
  match fuel with
  | O => NoFuel
  | S fuel' =>
      let z := inc_nblov z0 in
      guard (zldim z <? d)
      (let* rl := zget (zR z) (d - zldim z - 1) (d - zldim z - 1) in
       let t := fabs fp (fdiv fp rl diagold) in
       let* z1 :=
         (if flt fp t gap then
            let* z' := (if (Z.of_nat maxh <? Z.of_nat n - Z.of_nat (zldim z) - 1)%Z
                        then zswap maxh (n - zldim z - 1) z else Ok z) in
            Ok (set_ldim (zldim z' + 1) z')
          else Ok z) in
       if (target <=? Z.of_nat (zldim z1))%Z then Ok (0%Z, z1)
       else
         let ld := zldim z1 in
         let* diag' := zmindiag (zR z1) (d - ld - 1) in
         let* m := zleft (zR z1) g (d - ld) in
         (* 196-213 *)
         let* (bad, pk', pR') :=
           (if m <? d - ld then
              let* r := zget (zR z1) m m in
              guard (m <? length pR)
              (Ok (match pk with Some p => (p =? m) && flt fp (nth m pR fz) (fabs fp r) | None => false end,
                   Some m, lupd pR m (fabs fp r)))
            else Ok (false, pk, pR)) in
         if bad then Ok ((-1)%Z, z1)
         else if (Z.of_nat m <? Z.of_nat d - Z.of_nat ld - 1)%Z then
           (* 217-230 *)
           let* z2 := zswap m (m + 1) z1 in
           let* z3 := mfold (zhsizereduce fuel) (seq m (d - ld - m)) z2 in
           zloop fuel' g target z3 m diag' pk' pR'
         else
           (* 234-272 *)
           let* z2 := mfold (zhsizereduce fuel) (seq (d - ld) (n - ld - (d - ld))) z1 in
           guard (ld <? d)
           (let* m2 := zright (zR z2) (d - ld - 1) (d - ld) (n - ld) in
            let* z3 := zswap (d - ld - 1) m2 z2 in
            let* z4 := zhsizereduce fuel (d - ld - 1) z3 in
            zloop fuel' g target z4 m2 diag' pk' pR'))
  end.

(** decomp(gamma, targetdim), 67-279 *)
Definition decomp (fuel : nat) (gamma : F) (target : Z) (junk : F) (z : zfg F) : res (Z * zfg F) :=
  guard (0 <? d)
  (let g := fold_left (fun g i => g ++ [fmul fp (nth (i - 1) g fz) gamma]) (seq 1 (d - 1)) [gamma] in
   let* z1 := mfold (zhsizereduce fuel) (seq 0 n) z in
   let* diag := zmindiag (zR z1) d in
   zloop fuel g target z1 dec diag None (repeat junk d)).

(** constructor and init, 672-745; J: uninitialised floating-point memory.  [U] (or [W]) is the
    identity, the other matrix stays empty *)
Definition new_zfg (J : junk_t (F := F)) (A : mat Z) : zfg F :=
  mkZ (mtab d n (fn A)) (if transf then id_mat n else []) (if transf then [] else id_mat n)
      (mtab d n (jR J)) (mtab d d (jV J)) (map (jnB2 J) (seq 0 n)) 0 0%Z.

(** getbase 654-662, getU 606-624, getV 627-648 *)
Definition zgetbase (z : zfg F) : mat Z := mtab d n (fn (zF z)).
Definition zgetU (z : zfg F) : mat Z := if transf then mtab n n (fn (zU z)) else [].
Definition zgetV (z : zfg F) : mat Z := if transf then [] else mtab n n (fn (zW z)).

(** ** Every step is a unimodular column operation *)
Local Open Scope nat_scope.

(** [T], [Ti]: the transformation so far and its inverse *)
Definition zinv (A : zmat) (z : zfg F) : Prop :=
  wfm d n (zF z) /\ (transf = true -> wfm n n (zU z)) /\ (transf = false -> wfm n n (zW z)) /\
  exists T Ti : zmat, meq n n (mmul n T Ti) mid /\ meq n n (mmul n Ti T) mid /\
    meq d n (fn (zF z)) (mmul n A T) /\
    (transf = true -> meq n n (fn (zU z)) T) /\
    (transf = false -> meq n n (fn (zW z)) (mtr Ti)).

(** same integer data *)
Definition same_int (z z' : zfg F) : Prop := zF z' = zF z /\ zU z' = zU z /\ zW z' = zW z /\ zldim z' = zldim z.

Lemma same_int_refl z : same_int z z.
Proof. repeat split. Qed.
Lemma same_int_trans x y z : same_int x y -> same_int y z -> same_int x z.
Proof. intros (A1 & A2 & A3 & A4) (B1 & B2 & B3 & B4). repeat split; congruence. Qed.

Lemma zinv_same A z z' : same_int z z' -> zinv A z -> zinv A z'.
Proof. unfold zinv. intros (E1 & E2 & E3 & _). rewrite E1, E2, E3. auto. Qed.

Lemma mfold_same {S : Type} (f : S -> zfg F -> res (zfg F)) l : (forall a z z', f a z = Ok z' -> same_int z z') ->
  forall z z', mfold f l z = Ok z' -> same_int z z'.
Proof.
  intros Hf. induction l as [|a l IH]; intros z z' H; cbn [mfold] in H.
  - injection H as <-. apply same_int_refl.
  - binv H. eapply same_int_trans; eauto.
Qed.

Lemma zh_step_same kappa k z z' : zh_step kappa k z = Ok z' -> same_int z z'.
Proof. unfold zh_step. intros H. binv H. binv H. injection H as <-. repeat split. Qed.

Lemma zhouseholder_same kappa z z' : zhouseholder kappa z = Ok z' -> same_int z z'.
Proof.
  unfold zhouseholder. intros H. binv H. binv H.
  match type of H with context [if ?b then _ else _] => destruct b end.
  - binv H. apply mfold_same in Ha0; [|intros; eapply zh_step_same; eauto]. binv H. binv H.
    match type of H with context [if ?b then _ else _] => destruct b end; injection H as <-;
      (eapply same_int_trans; [|eapply same_int_trans; [exact Ha0|]]; repeat split).
  - apply mfold_same in H; [|intros; eapply zh_step_same; eauto].
    eapply same_int_trans; [|exact H]. repeat split.
Qed.

(** a column operation *)
Lemma meq_mul_cong a b c A A' B B' : meq a b A A' -> meq b c B B' -> meq a c (mmul b A B) (mmul b A' B').
Proof. intros. now apply mmul_ext. Qed.

Lemma zinv_op A z f u w (E Ei : zmat) : zinv A z ->
  meq n n (mmul n E Ei) mid -> meq n n (mmul n Ei E) mid ->
  wfm d n f -> (transf = true -> wfm n n u) -> (transf = false -> wfm n n w) ->
  meq d n (fn f) (mmul n (fn (zF z)) E) ->
  (transf = true -> meq n n (fn u) (mmul n (fn (zU z)) E)) ->
  (transf = false -> meq n n (fn w) (mmul n (fn (zW z)) (mtr Ei))) ->
  zinv A (set_int f u w z).
Proof.
  intros (W1 & W2 & W3 & T & Ti & I1 & I2 & EF & EU & EW) E1 E2 Wf Wu Ww HF HU HW.
  unfold zinv. cbn [set_int zF zU zW]. repeat (split; [assumption|]).
  exists (mmul n T E), (mmul n Ei Ti). split; [|split; [|split; [|split]]].
  - intros i j Hi Hj. rewrite mmul_assoc.
    transitivity (mmul n T Ti i j); [|now apply I1].
    apply (mmul_ext n n n); try assumption; [apply meq_refl|].
    intros k l Hk Hl. rewrite <- mmul_assoc.
    transitivity (mmul n mid Ti k l); [apply (mmul_ext n n n); try assumption; apply meq_refl|].
    now apply (mmul_id_l n n).
  - intros i j Hi Hj. rewrite mmul_assoc.
    transitivity (mmul n Ei E i j); [|now apply E2].
    apply (mmul_ext n n n); try assumption; [apply meq_refl|].
    intros k l Hk Hl. rewrite <- mmul_assoc.
    transitivity (mmul n mid E k l); [apply (mmul_ext n n n); try assumption; apply meq_refl|].
    now apply (mmul_id_l n n).
  - apply mmul_mul_r. eapply meq_trans; [exact HF|]. apply mmul_ext; [exact EF|apply meq_refl].
  - intros Ht. eapply meq_trans; [now apply HU|]. apply mmul_ext; [now apply EU|apply meq_refl].
  - intros Ht. eapply meq_trans; [now apply HW|].
    intros i j Hi Hj. transitivity (mmul n (mtr Ti) (mtr Ei) i j).
    + apply (mmul_ext n n n); try assumption; [now apply EW|apply meq_refl].
    + unfold mmul, mtr. apply sumZ_ext. intros l Hl. ring.
Qed.

Lemma zinv_col A kappa i xz z : i <> kappa -> i < n -> kappa < n -> zinv A z -> zinv A (zcol kappa i xz z).
Proof.
  intros N Hi Hk I. pose proof I as (W1 & W2 & W3 & _).
  assert (ZF : forall m M r, m <= r -> zero_from m M i r) by (intros m M r Hr p Hp; lia).
  destruct (unimodular_elem_add n i kappa (- xz) Hi Hk N) as (Ei & E1 & E2). clear Ei E1 E2.
  assert (EE : meq n n (mmul n (elem_add i kappa (- xz)) (elem_add i kappa xz)) mid /\
               meq n n (mmul n (elem_add i kappa xz) (elem_add i kappa (- xz))) mid).
  { apply Nat.eqb_neq in N.
    split; intros p q Hp Hq; rewrite mmul_elem_add by assumption; unfold elem_add;
      rewrite N, andb_false_r, Z.add_0_r;
      destruct (Nat.eqb q kappa) eqn:Ej; rewrite ?andb_false_r, ?andb_true_r; cbn; try ring;
      unfold mid; destruct (Nat.eqb p i) eqn:E; ring. }
  destruct EE as [E1 E2]. unfold zcol. apply (zinv_op A z _ _ _ _ _ I E1 E2).
  - now apply wfm_colop.
  - intros Ht. rewrite Ht. apply wfm_colop. auto.
  - intros Ht. rewrite Ht. apply wfm_colop. auto.
  - apply red_mmul; auto.
  - intros Ht. rewrite Ht. apply red_mmul; auto.
  - intros Ht. rewrite Ht. specialize (W3 Ht).
    assert (TR : meq n n (mtr (elem_add i kappa xz)) (elem_add kappa i xz)).
    { intros p q Hp Hq. unfold mtr, elem_add, mid. rewrite (Nat.eqb_sym q p). f_equal.
      rewrite andb_comm. reflexivity. }
    intros p q Hp Hq.
    transitivity (mmul n (fn (zW z)) (elem_add kappa i xz) p q).
    + rewrite <- (Z.opp_involutive xz) at 2.
      apply (red_mmul n n (zW z) i kappa (- xz)%Z n); auto. intros l Hl. lia.
    + apply (mmul_ext n n n); try assumption; [apply meq_refl|now apply meq_sym].
Qed.

Lemma zinv_swap A p q z z' : zswap p q z = Ok z' -> zinv A z -> zinv A z'.
Proof.
  unfold zswap. intros H I. apply guard_Ok in H as [G H]. injection H as <-. apply andb_true_iff in G as [Hp Hq].
  apply Nat.ltb_lt in Hp, Hq. pose proof I as (W1 & W2 & W3 & _).
  assert (SS : meq n n (mmul n (elem_swap p q) (elem_swap p q)) mid).
  { intros i j Hi Hj. rewrite mmul_elem_swap by assumption. unfold elem_swap. f_equal.
    destruct (Nat.eqb_spec j p) as [->|N1].
    - rewrite Nat.eqb_refl. destruct (Nat.eqb_spec q p) as [->|]; reflexivity.
    - destruct (Nat.eqb_spec j q) as [->|N2].
      + now rewrite Nat.eqb_refl.
      + apply Nat.eqb_neq in N1, N2. now rewrite N1, N2. }
  apply (zinv_op A z _ _ _ _ _ I SS SS).
  - now apply wfm_colswap.
  - intros Ht. rewrite Ht. apply wfm_colswap; auto.
  - intros Ht. rewrite Ht. apply wfm_colswap; auto.
  - now apply swap_mmul.
  - intros Ht. rewrite Ht. apply swap_mmul; auto.
  - intros Ht. rewrite Ht. specialize (W3 Ht). intros i j Hi Hj.
    rewrite (swap_mmul n n (zW z) p q W3 Hp Hq i j Hi Hj).
    apply (mmul_ext n n n); try assumption; [apply meq_refl|].
    intros a b Ha Hb. unfold mtr, elem_swap, mid.
    destruct (Nat.eqb_spec b p), (Nat.eqb_spec b q), (Nat.eqb_spec a p), (Nat.eqb_spec a q);
      repeat match goal with |- context [if ?x =? ?y then _ else _] => destruct (Nat.eqb_spec x y) end;
      subst; try congruence; try reflexivity; try lia.
Qed.

Lemma zelim_inv A kappa i z b z' b' : i < kappa -> zelim kappa i (z, b) = Ok (z', b') -> zinv A z -> zinv A z'.
Proof.
  intros Hi H I. unfold zelim in H. binv H. binv H.
  unfold zget in Ha. apply guard_Ok in Ha as [G _]. apply andb_true_iff in G as [_ G]. apply Nat.ltb_lt in G.
  destruct (fnz fp _); [|injection H as <- _; exact I]. injection H as <- _.
  apply zinv_col; try lia. exact I.
Qed.

Lemma zelims_inv A kappa l : (forall i, In i l -> i < kappa) -> forall z b z' b',
  mfold (zelim kappa) l (z, b) = Ok (z', b') -> zinv A z -> zinv A z'.
Proof.
  induction l as [|i l IH]; intros Hl z b z' b' H I; cbn [mfold] in H.
  - injection H as <- _. exact I.
  - binv H. destruct a as [z1 b1]. apply (zelim_inv A) in Ha; auto; [|apply Hl; now left].
    eapply IH; eauto. intros j Hj. apply Hl. now right.
Qed.

Lemma elim_list_lt kappa ld i : In i (elim_list kappa ld) -> i < kappa.
Proof.
  unfold elim_list. destruct (Nat.eqb_spec kappa 0); [intros []|]. destruct (d <=? ld); [intros []|].
  cbn [orb]. rewrite in_down. lia.
Qed.

Lemma zhs_loop_inv A fuel kappa : forall z z', zhs_loop fuel kappa z = Ok z' -> zinv A z -> zinv A z'.
Proof.
  induction fuel as [|fuel IH]; intros z z' H I; cbn [zhs_loop] in H; [discriminate|].
  binv H. destruct a as [z1 sd]. apply (zelims_inv A) in Ha; auto; [|intros i Hi; eapply elim_list_lt; eauto].
  destruct sd.
  - binv H. apply zhouseholder_same in Ha0. pose proof (zinv_same A _ _ Ha0 Ha) as I2.
    destruct (flt fp _ _); [now apply (IH a)|]. now injection H as <-.
  - now injection H as <-.
Qed.

Lemma zhsizereduce_inv A fuel kappa z z' : zhsizereduce fuel kappa z = Ok z' -> zinv A z -> zinv A z'.
Proof.
  unfold zhsizereduce. intros H I. binv H. apply zhouseholder_same in Ha.
  eapply zhs_loop_inv; [exact H|]. eapply zinv_same; eauto.
Qed.

Lemma zreds_inv A fuel l z z' : mfold (zhsizereduce fuel) l z = Ok z' -> zinv A z -> zinv A z'.
Proof.
  intros H I. apply (mfold_inv (zinv A) (zhsizereduce fuel) l z z'); auto.
  intros a t t' _ Ht E. eapply zhsizereduce_inv; eauto.
Qed.

Lemma zloop_inv A fuel g target : forall z maxh dg pk pR r z',
  zloop fuel g target z maxh dg pk pR = Ok (r, z') -> zinv A z -> zinv A z' /\ (r = 0%Z \/ r = (-1)%Z).
Proof.
  induction fuel as [|fuel IH]; intros z maxh dg pk pR r z' H I; cbn [zloop] in H; [discriminate|].
  cbv zeta in H. apply guard_Ok in H as [_ H]. binv H. binv H.
  assert (I1 : zinv A a0).
  { destruct (flt fp _ _).
    - binv Ha0. injection Ha0 as <-. change (zinv A a1). destruct (_ <? _)%Z.
      + eapply zinv_swap; eauto.
      + injection Ha1 as <-. exact I.
    - injection Ha0 as <-. exact I. }
  clear Ha0. destruct (_ <=? _)%Z; [injection H as <- <-; auto|].
  binv H. binv H. binv H. destruct a3 as [[bad pk'] pR']. destruct bad; [injection H as <- <-; auto|].
  destruct (_ <? _)%Z.
  - binv H. binv H.
    match goal with X : zswap _ _ _ = Ok _ |- _ => apply (zinv_swap A) in X; auto end.
    match goal with X : mfold (zhsizereduce _) _ _ = Ok _ |- _ => apply (zreds_inv A) in X; auto end.
    eapply IH; eauto.
  - binv H. apply guard_Ok in H as [_ H]. binv H. binv H. binv H.
    match goal with X : mfold (zhsizereduce _) _ _ = Ok _ |- _ => apply (zreds_inv A) in X; auto end.
    match goal with X : zswap _ _ _ = Ok _ |- _ => apply (zinv_swap A) in X; auto end.
    match goal with X : zhsizereduce _ _ _ = Ok _ |- _ => apply (zhsizereduce_inv A) in X; auto end.
    eapply IH; eauto.
Qed.

Lemma decomp_inv A fuel gamma target junk z r z' : decomp fuel gamma target junk z = Ok (r, z') -> zinv A z ->
  zinv A z' /\ (r = 0%Z \/ r = (-1)%Z).
Proof.
  unfold decomp. intros H I. apply guard_Ok in H as [_ H]. binv H. binv H.
  eapply zloop_inv; eauto. eapply zreds_inv; eauto.
Qed.

Lemma new_inv J A : zinv (fn A) (new_zfg J A).
Proof.
  unfold zinv, new_zfg. cbn [zF zU zW]. split; [apply mtab_wfm|].
  split; [intros ->; apply mtab_wfm|]. split; [intros ->; apply mtab_wfm|].
  exists mid, mid. split; [apply mmul_id_l|]. split; [apply mmul_id_l|]. split.
  - eapply meq_trans; [apply fn_mtab|]. apply meq_sym, mmul_id_r.
  - split; intros ->; intros i j Hi Hj; rewrite id_mat_fn by assumption; auto.
    unfold mtr, mid. now rewrite Nat.eqb_sym.
Qed.

End Model.
