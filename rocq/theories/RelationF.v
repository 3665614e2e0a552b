(** * RelationF: floating-point relations with elementary lifts, src/relations_f.cc (ZT = long)

    The inner reduction (Lattice<FT,FT> on Z_NR<double> matrices, or fplll) is an arbitrary function [red]: from the
    lifted first row and its own state (Af, B) it gives the new state and the transformation V; nothing is assumed about
    V in the model.  mpz_t products are exact; long products overflow to [UB]. *)
From Coq Require Import ZArith Lia List Bool Arith.
From Verif Require Import Base Spec Mat FP Hlll IntSteps HlllInt LinDep Structure MachInt Trunc.
Import ListNotations.
Local Open Scope nat_scope.

(** a result of long arithmetic *)
Definition lchk (x : Z) : res Z := guard ((- 2 ^ 63 <=? x) && (x <? 2 ^ 63))%Z (Ok x).

(** one entry of matprod_in(U, V) for long entries, mat.h 1264-1286: mul, then addmul for k = 1 .. d-1 *)
Definition lentry (d : nat) (U V : mat Z) (i j : nat) : res Z :=
  let* a := lchk (fn U i 0%nat * fn V 0%nat j) in
  mfold (fun k a => let* p := lchk (fn U i k * fn V k j) in lchk (a + p)) (seq 1 (d - 1)) a.
Definition lrow (d : nat) (U V : mat Z) (i : nat) : res (list Z) :=
  mfold (fun j l => let* a := lentry d U V i j in Ok (l ++ [a])) (seq 0 d) [].
(** the rows, then stored column by column *)
Definition lprod (d : nat) (U V : mat Z) : res (mat Z) :=
  guard (0 <? d)
  (let* rows := mfold (fun i l => let* r := lrow d U V i in Ok (l ++ [r])) (seq 0 d) [] in
   Ok (mtab d d (fun i j => nth j (nth i rows []) 0%Z))).
(** matprod_in_si, mat.h 1610-1632: exact *)
Definition zprod (m d : nat) (A U : mat Z) : mat Z := mtab m d (mmul d (fn A) (fn U)).

Section Model.
Context {X Q D : Type}.
Variable sib : Z -> Z.                       (* size_in_bits of a long *)
(** lift L by 2^new_def, assign, reduce, convert U to long: 408-446; arguments: lllmethod, sizemethod, delta, new_def, L *)
Variable red : Z -> Z -> D -> Z -> mat Z -> X -> res (X * mat Z).
(** the copy of the lower part of A_in in FT and the new Lattice: 336-347, 388 (arguments: sizemethod, the lower part) *)
Variable mkx : Z -> mat Z -> X.
(** the gap test 467-505: exponent of the confidence, previous quotient, |L(0,0)| (1 for 0), the reduced matrix *)
Variable gtest : Z -> Q -> Z -> X -> Q * bool.
Variable qinit : Z -> Q.                     (* 1.0 * 2^alpha, 208-210 *)
Variable toint : D -> Z.                     (* conversion of a double to the int parameter sizemethod *)
Variable d099 : D.                           (* the default argument 0.99, relations_f.h 74-86 *)

Definition lmax (d : nat) (M : mat Z) : Z :=
  fold_left (fun l i => fold_left (fun l j => Z.max l (sib (fn M i j))) (seq 0 d) l) (seq 0 d) 0%Z.

(** entries of V are longs *)
Definition longs (d : nat) (M : mat Z) : bool :=
  forallb (fun i => forallb (fun j => ((- 2 ^ 63 <=? fn M i j) && (fn M i j <? 2 ^ 63))%Z) (seq 0 d)) (seq 0 d).

(** detect_lift_f_z, 326-513: returns (found, new_def, U, new_quot) *)
Fixpoint dl_loop (fuel d : nat) (lm sm : Z) (delta : D) (conf sh inc s nd : Z) (L U : mat Z) (x : X) (q : Q)
  : res (Z * Z * mat Z * Q) :=
  if (s <? sh)%Z then
    match fuel with
    | O => NoFuel
    | S fuel' =>
        let nd' := (nd + inc)%Z in
        let* (x', V) := red lm sm delta nd' L x in
        guard (longs d V)
        (if (50 <? lmax d U + lmax d V)%Z then Ok (0%Z, nd', U, q)
         else
           let* U' := lprod d U V in
           let L' := zprod 1 d L V in
           let xz := if (fn L' 0%nat 0%nat =? 0)%Z then 1%Z else Z.abs (fn L' 0%nat 0%nat) in
           let '(q', b) := gtest conf q xz x' in
           if b then Ok (1%Z, nd', U', q')
           else dl_loop fuel' d lm sm delta conf sh inc (s + inc) nd' L' U' x' q')
    end
  else Ok (0%Z, nd, U, q).

Definition detect_lift_f_z (fuel d : nat) (L low : mat Z) (def : Z) (q : Q) (conf sh inc lm sm : Z) (delta : D) :=
  dl_loop fuel d lm sm delta (- conf - sh) sh inc 0 def L (id_mat d) (mkx sm low) q.

(** main loop of relation_f_z, 215-262; A_in: (1+d) x d; the call passes [delta] as the argument sizemethod *)
Fixpoint rf_loop (fuel fd d : nat) (conf shift ish inc lm target : Z) (delta : D) (A_in : mat Z) (def : Z) (q : Q)
  : res (Z * mat Z) :=
  if (def <? target)%Z then
    match fuel with
    | O => NoFuel
    | S fuel' =>
        let ish' := if (target - def <=? shift)%Z then (target - def)%Z else ish in
        let L := mtab 1 d (fun _ j => fn A_in 0 j) in
        let low := mtab d d (fun i j => fn A_in (1 + i) j) in
        let* (rs, q') := detect_lift_f_z fd d L low def q conf ish' inc lm (toint delta) d099 in
        let '(found, nd, U) := rs in
        let A' := zprod (1 + d) d A_in U in
        if (found =? 1)%Z then Ok (1%Z, mtab d 1 (fun j _ => fn A' (1 + j) 0))
        else rf_loop fuel' fd d conf shift ish' inc lm target delta A' nd q'
    end
  else Ok (0%Z, []).

(** relation_f_z(C, A, alpha, ..., sizemethod, delta), 168-306: sizemethod is not used; the final computation of a bound
    (266-300) only prints.  A: 1 x d *)
Definition relation_f_z (fuel fd d : nat) (A : mat Z) (alpha conf shift inc lm sizemethod : Z) (delta : D) : res (Z * mat Z) :=
  let A_in := mtab (1 + d) d (fun i j => if i =? 0 then fn A 0 j else if i =? 1 + j then 1%Z else 0%Z) in
  let bs := fold_left (fun l j => Z.max l (sizeinbase2 (fn A 0 j))) (seq 0 d) 0%Z in
  rf_loop fuel fd d conf shift shift inc lm (- bs + alpha) delta A_in (- bs) (qinit alpha).

(** relation(C, alpha, ..., lllmethod, sizemethod, delta), 129-152: [conv] = the rounded fpv[j] 2^alpha; the call passes
    [delta] as the argument sizemethod and leaves delta at its default *)
Definition relation_f (fuel fd d : nat) (conv : Z -> mat Z) (alpha conf shift inc lm sizemethod : Z) (delta : D) : res (Z * mat Z) :=
  relation_f_z fuel fd d (conv alpha) alpha conf shift inc lm (toint delta) d099.

End Model.

(** ** Facts *)
Lemma Okpair {A B} (a c : A) (b e : B) : Ok (a, b) = Ok (c, e) -> c = a /\ e = b.
Proof. intros [= -> ->]. auto. Qed.
Lemma lchk_ok x : (- 2 ^ 63 <= x < 2 ^ 63)%Z -> lchk x = Ok x.
Proof.
  intros H. unfold lchk, guard. replace ((- 2 ^ 63 <=? x) && (x <? 2 ^ 63))%Z with true; [reflexivity|].
  symmetry. apply andb_true_iff. rewrite Z.leb_le, Z.ltb_lt. exact H.
Qed.
Lemma lchk_inv x y : lchk x = Ok y -> y = x.
Proof. unfold lchk. intros H. apply guard_Ok in H as [_ H]. congruence. Qed.

Lemma lentry_inv d U V i j a : lentry d U V i j = Ok a -> 0 < d -> a = mmul d (fn U) (fn V) i j.
Proof.
  unfold lentry. intros H Hd. binv H. apply lchk_inv in Ha. subst a0.
  assert (G : forall m s0 a a', mfold (fun k a => let* p := lchk (fn U i k * fn V k j) in lchk (a + p)) (seq s0 m) a = Ok a' ->
              a' = (a + sumZ m (fun k => fn U i (s0 + k)%nat * fn V (s0 + k)%nat j))%Z).
  { induction m as [|m IH]; intros s0 x y E; cbn [seq mfold] in E.
    - injection E as <-. cbn. ring.
    - binv E. binv Ha. apply lchk_inv in Ha0, Ha. subst a1 a0. apply IH in E. rewrite E.
      replace (S m) with (1 + m) by lia. rewrite sumZ_split. cbn [sumZ]. rewrite Nat.add_0_r.
      rewrite (sumZ_ext m _ (fun k => fn U i (s0 + (1 + k))%nat * fn V (s0 + (1 + k))%nat j)%Z); [ring|].
      intros k Hk. now replace (S s0 + k) with (s0 + (1 + k)) by lia. }
  apply G in H. subst a. unfold mmul. replace d with (1 + (d - 1)) at 2 by lia. rewrite sumZ_split. cbn [sumZ Nat.add]. ring.
Qed.

Lemma mfold_snoc {B} (f : nat -> res B) l : forall acc out,
  mfold (fun i l => let* r := f i in Ok (l ++ [r])) l acc = Ok out ->
  exists tl, out = acc ++ tl /\ length tl = length l /\ forall k x, nth_error l k = Some x -> exists y, f x = Ok y /\ nth_error tl k = Some y.
Proof.
  induction l as [|a l IH]; intros acc out H; cbn [mfold] in H.
  - injection H as <-. exists []. rewrite app_nil_r. split; [reflexivity|]. split; [reflexivity|].
    intros [|k] x; cbn; discriminate.
  - binv H. binv Ha. injection Ha as <-. apply IH in H as (tl & -> & L & P).
    exists (a1 :: tl). rewrite <- app_assoc. split; [reflexivity|]. split; [cbn; lia|].
    intros [|k] x; cbn.
    + intros [= <-]. eauto.
    + apply P.
Qed.
Lemma mfold_snoc_ok {B} (f : nat -> res B) l : (forall i, In i l -> exists y, f i = Ok y) -> forall acc,
  exists out, mfold (fun i l => let* r := f i in Ok (l ++ [r])) l acc = Ok out.
Proof.
  induction l as [|a l IH]; intros H acc; cbn [mfold]; [eauto|].
  destruct (H a ltac:(now left)) as (y & ->). cbn [bind]. apply IH. intros i Hi. apply H. now right.
Qed.

Lemma seq_nth_error m k s0 : k < m -> nth_error (seq s0 m) k = Some (s0 + k).
Proof. intros H. rewrite (nth_error_nth' _ 0) by (now rewrite seq_length). now rewrite seq_nth. Qed.

Lemma lprod_inv d U V W : lprod d U V = Ok W -> wfm d d W /\ meq d d (fn W) (mmul d (fn U) (fn V)).
Proof.
  unfold lprod. intros H. apply guard_Ok in H as [G H]. apply Nat.ltb_lt in G. binv H. injection H as <-.
  split; [apply mtab_wfm|]. intros i j Hi Hj. rewrite fn_mtab by assumption.
  apply mfold_snoc in Ha as (tl & -> & L & P). cbn [app].
  destruct (P i i (seq_nth_error d i 0 Hi)) as (r & Hr & Er). rewrite (nth_error_nth _ _ _ Er).
  unfold lrow in Hr. apply mfold_snoc in Hr as (tl' & -> & L' & P'). cbn [app].
  destruct (P' j j (seq_nth_error d j 0 Hj)) as (y & Hy & Ey). rewrite (nth_error_nth _ _ _ Ey).
  now apply lentry_inv in Hy.
Qed.

(** no overflow when the entries are bounded as the 50-bit test ensures *)
Lemma lprod_ok d U V (bu bv : Z) : 0 < d -> (Z.of_nat d <= 8192)%Z -> (0 <= bu)%Z -> (0 <= bv)%Z -> (bu + bv <= 50)%Z ->
  (forall i j, i < d -> j < d -> (Z.abs (fn U i j) < 2 ^ bu)%Z) ->
  (forall i j, i < d -> j < d -> (Z.abs (fn V i j) < 2 ^ bv)%Z) ->
  exists W, lprod d U V = Ok W.
Proof.
  intros Hd D B1 B2 Bs HU HV.
  assert (PB : forall i j k, i < d -> j < d -> k < d -> (Z.abs (fn U i k * fn V k j) <= 2 ^ 50 - 1)%Z).
  { intros i j k Hi Hj Hk. rewrite Z.abs_mul. specialize (HU i k Hi Hk). specialize (HV k j Hk Hj).
    transitivity (2 ^ bu * 2 ^ bv - 1)%Z.
    - transitivity ((2 ^ bu - 1) * (2 ^ bv - 1))%Z; [apply Z.mul_le_mono_nonneg; lia|]. nia.
    - rewrite <- Z.pow_add_r by lia. apply Z.sub_le_mono_r, Z.pow_le_mono_r; lia. }
  assert (E : forall i j, i < d -> j < d -> exists a, lentry d U V i j = Ok a).
  { intros i j Hi Hj. unfold lentry. pose proof (PB i j 0 Hi Hj Hd) as P0.
    assert (K : (8192 * (2 ^ 50 - 1) < 2 ^ 63)%Z) by reflexivity.
    assert (K0 : (0 < 2 ^ 50 - 1)%Z) by reflexivity.
    remember (2 ^ 50 - 1)%Z as B50 eqn:EB. clear EB.
    remember (fn U i 0%nat * fn V 0%nat j)%Z as p0 eqn:E0. clear E0.
    rewrite (lchk_ok p0) by lia. cbn [bind].
    assert (Gm : forall m s0 a, s0 + m <= d -> (Z.abs a <= Z.of_nat s0 * B50)%Z ->
      exists a', mfold (fun k a => let* p := lchk (fn U i k * fn V k j) in lchk (a + p)) (seq s0 m) a = Ok a').
    { induction m as [|m IH]; intros s0 a Hs Ha; cbn [seq mfold]; [eauto|].
      pose proof (PB i j s0 Hi Hj ltac:(lia)) as Ps. remember (fn U i s0 * fn V s0 j)%Z as ps eqn:E0. clear E0.
      assert (M : (Z.of_nat s0 * B50 + B50 <= 8192 * B50)%Z).
      { replace (Z.of_nat s0 * B50 + B50)%Z with ((Z.of_nat s0 + 1) * B50)%Z by ring. apply Z.mul_le_mono_nonneg_r; lia. }
      rewrite (lchk_ok ps) by lia. cbn [bind].
      rewrite lchk_ok by lia. cbn [bind]. apply IH; [lia|]. rewrite Nat2Z.inj_succ, Z.mul_succ_l. lia. }
    apply Gm; [lia|]. cbn [Z.of_nat]. lia. }
  unfold lprod. apply Nat.ltb_lt in Hd. rewrite Hd. cbn [guard].
  destruct (mfold_snoc_ok (lrow d U V) (seq 0 d)) with (acc := @nil (list Z)) as (rows & ->).
  - intros i Hi. apply in_seq in Hi. unfold lrow. apply mfold_snoc_ok. intros j Hj. apply in_seq in Hj. apply E; lia.
  - cbn [bind]. eauto.
Qed.

(** relation_f_z *)
Definition rf_inv (d : nat) (A : zmat) (A_in : mat Z) : Prop :=
  wfm (1 + d) d A_in /\ forall j, j < d -> fn A_in 0 j = mmul d A (fun a b => fn A_in (1 + a) b) 0 j.

Lemma rf_inv_mul d A A_in U : rf_inv d A A_in -> rf_inv d A (zprod (1 + d) d A_in U).
Proof.
  intros [W E]. split; [apply mtab_wfm|]. intros j Hj. unfold zprod at 1. rewrite fn_mtab by lia.
  transitivity (mmul d (mmul d A (fun a b => fn A_in (1 + a) b)) (fn U) 0 j).
  - unfold mmul at 1 2. apply sumZ_ext. intros k Hk. f_equal. now apply E.
  - rewrite mmul_assoc. unfold mmul at 1. unfold mmul at 2. apply sumZ_ext. intros k Hk. f_equal.
    unfold zprod. rewrite fn_mtab by lia. reflexivity.
Qed.

Lemma rf_start d A : rf_inv d (fn A) (mtab (1 + d) d (fun i j => if i =? 0 then fn A 0 j else if i =? 1 + j then 1%Z else 0%Z)).
Proof.
  split; [apply mtab_wfm|]. intros j Hj. rewrite fn_mtab by lia. cbn [Nat.eqb].
  symmetry. transitivity (mmul d (fn A) mid 0 j); [|now apply (mmul_id_r 1 d); lia].
  unfold mmul. apply sumZ_ext. intros k Hk. f_equal. rewrite fn_mtab by lia. reflexivity.
Qed.

Section Facts.
Context {X Q D : Type}.
Variable sib : Z -> Z.
Variable red : Z -> Z -> D -> Z -> mat Z -> X -> res (X * mat Z).
Variable mkx : Z -> mat Z -> X.
Variable gtest : Z -> Q -> Z -> X -> Q * bool.
Variable toint : D -> Z.
Variable d099 : D.
Notation dl_loop := (dl_loop sib red gtest).
Notation rf_loop := (rf_loop sib red mkx gtest toint d099).

(** the value that passes the test *)
Definition accepted (v : Z) : Prop := exists conf q x q', gtest conf q (if (v =? 0)%Z then 1%Z else Z.abs v) x = (q', true).

(** detect: U accumulates the product P of the V's, the tested value is that of L . U *)
Lemma dl_inv d (L0 : mat Z) lm sm delta conf sh inc : forall fuel s nd L U x q f nd' U' q',
  dl_loop fuel d lm sm delta conf sh inc s nd L U x q = Ok (f, nd', U', q') ->
  wfm d d U -> meq 1 d (fn L) (mmul d (fn L0) (fn U)) ->
  wfm d d U' /\ (f = 0%Z \/ f = 1%Z /\ 0 < d /\ accepted (mmul d (fn L0) (fn U') 0%nat 0%nat)).
Proof.
  induction fuel as [|fuel IH]; intros s nd L U x q f nd' U' q' H W E; cbn [RelationF.dl_loop] in H.
  - destruct (s <? sh)%Z; [discriminate|]. injection H as <- <- <- <-. auto.
  - destruct (s <? sh)%Z; [|injection H as <- <- <- <-; auto].
    binv H. destruct a as [x' V]. apply guard_Ok in H as [_ H].
    destruct (50 <? _)%Z; [injection H as <- <- <- <-; auto|].
    binv H. rename a into U1. pose proof Ha0 as Hl. apply lprod_inv in Hl as [W1 E1].
    assert (Hd : 0 < d).
    { unfold lprod in Ha0. apply guard_Ok in Ha0 as [G _]. now apply Nat.ltb_lt. }
    assert (E' : meq 1 d (fn (zprod 1 d L V)) (mmul d (fn L0) (fn U1))).
    { intros i j Hi Hj. unfold zprod. rewrite fn_mtab by assumption.
      transitivity (mmul d (mmul d (fn L0) (fn U)) (fn V) i j).
      - apply (mmul_ext 1 d d); try assumption. apply meq_refl.
      - rewrite mmul_assoc. apply (mmul_ext 1 d d); try assumption; [apply meq_refl|]. intros a b Ha2 Hb2. symmetry. now apply E1. }
    cbv zeta in H. destruct (gtest _ _ _ _) as [q1 b] eqn:G. destruct b.
    + injection H as <- <- <- <-. split; [exact W1|]. right. split; [reflexivity|]. split; [exact Hd|].
      rewrite <- E' by lia. unfold accepted. eauto.
    + eapply IH; eauto.
Qed.

Lemma rf_candidate d A conf shift inc lm target delta : forall fuel fd ish A_in def q r C,
  rf_loop fuel fd d conf shift ish inc lm target delta A_in def q = Ok (r, C) -> rf_inv d A A_in ->
  r = 0%Z \/ r = 1%Z /\ wfm d 1 C /\ accepted (sumZ d (fun j => A 0%nat j * fn C j 0%nat)%Z).
Proof.
  induction fuel as [|fuel IH]; intros fd ish A_in def q r C H I; cbn [RelationF.rf_loop] in H.
  - destruct (def <? target)%Z; [discriminate|]. injection H as <- <-. auto.
  - destruct (def <? target)%Z; [|injection H as <- <-; auto].
    cbv zeta in H. binv H. destruct a as [[[f nd] U] q']. unfold detect_lift_f_z in Ha.
    apply (dl_inv d (mtab 1 d (fun _ j => fn A_in 0 j))) in Ha.
    + destruct Ha as [W [->|(-> & Hd & Acc)]].
      * cbn [Z.eqb] in H. eapply IH; [exact H|]. now apply rf_inv_mul.
      * change (1 =? 1)%Z with true in H. cbv iota in H. apply Okpair in H as [-> ->]. right. split; [reflexivity|]. split; [apply mtab_wfm|].
        pose proof (rf_inv_mul d A A_in U I) as [W' E'].
        assert (EQ : mmul d (fn (mtab 1 d (fun _ j => fn A_in 0 j))) (fn U) 0 0
                   = sumZ d (fun j => A 0%nat j * fn (mtab d 1 (fun j0 _ => fn (zprod (1 + d) d A_in U) (1 + j0)%nat 0%nat)) j 0%nat)%Z).
        { transitivity (fn (zprod (1 + d) d A_in U) 0 0).
          - unfold zprod. rewrite fn_mtab by lia. unfold mmul. apply sumZ_ext. intros k Hk. f_equal. now rewrite fn_mtab by lia.
          - rewrite E' by lia. unfold mmul. apply sumZ_ext. intros k Hk. f_equal. now rewrite fn_mtab by lia. }
        rewrite <- EQ. exact Acc.
    + apply mtab_wfm.
    + intros i j Hi Hj. assert (i = 0) by lia. subst i.
      transitivity (mmul d (fn (mtab 1 d (fun _ j0 => fn A_in 0 j0))) mid 0 j).
      * symmetry. now apply (mmul_id_r 1 d).
      * apply (mmul_ext 1 d d); try lia; [apply meq_refl|]. intros a b Ha2 Hb2. symmetry. now apply id_mat_fn.
Qed.

(** unimodularity of the lower part, when every V is unimodular *)
Variable d : nat.
Hypothesis redU : forall lm sm dl nd L x x' V, red lm sm dl nd L x = Ok (x', V) -> longs d V = true -> unimodular d (fn V).
Lemma dl_unim lm sm delta conf sh inc : forall fuel s nd L U x q f nd' U' q',
  dl_loop fuel d lm sm delta conf sh inc s nd L U x q = Ok (f, nd', U', q') -> unimodular d (fn U) -> unimodular d (fn U').
Proof using redU.
  induction fuel as [|fuel IH]; intros s nd L U x q f nd' U' q' H W; cbn [RelationF.dl_loop] in H.
  - destruct (s <? sh)%Z; [discriminate|]. injection H as <- <- <- <-. auto.
  - destruct (s <? sh)%Z; [|injection H as <- <- <- <-; auto].
    binv H. destruct a as [x' V]. apply guard_Ok in H as [Gl H].
    destruct (50 <? _)%Z; [injection H as <- <- <- <-; auto|].
    binv H. apply lprod_inv in Ha0 as [W1 E1].
    assert (Un : unimodular d (fn a)).
    { eapply unimodular_ext; [apply meq_sym; exact E1|]. apply unimodular_mul; [exact W|]. eapply redU; eauto. }
    cbv zeta in H. destruct (gtest _ _ _ _) as [q1 b]. destruct b; [injection H as <- <- <- <-; exact Un|]. eapply IH; eauto.
Qed.

Lemma rf_unim conf shift inc lm target delta : forall fuel fd ish A_in def q r C,
  rf_loop fuel fd d conf shift ish inc lm target delta A_in def q = Ok (r, C) -> 0 < d ->
  unimodular d (fun a b => fn A_in (1 + a) b) -> r = 1%Z ->
  exists M, unimodular d M /\ forall j, j < d -> fn C j 0 = M j 0.
Proof using redU.
  induction fuel as [|fuel IH]; intros fd ish A_in def q r C H Hd I Hr; cbn [RelationF.rf_loop] in H.
  - destruct (def <? target)%Z; [discriminate|]. injection H as <- <-. discriminate.
  - destruct (def <? target)%Z; [|injection H as <- <-; discriminate].
    cbv zeta in H. binv H. destruct a as [[[f nd] U] q']. unfold detect_lift_f_z in Ha.
    apply dl_unim in Ha; [|eapply unimodular_ext; [|apply unimodular_id]; intros i j Hi Hj; symmetry; now apply id_mat_fn].
    assert (Un : unimodular d (fun a b => fn (zprod (1 + d) d A_in U) (1 + a) b)).
    { eapply unimodular_ext; [|apply unimodular_mul; [exact I|exact Ha]].
      intros i j Hi Hj. unfold zprod. rewrite fn_mtab by lia. reflexivity. }
    destruct (f =? 1)%Z.
    + apply Okpair in H as [-> ->]. exists (fun a b => fn (zprod (1 + d) d A_in U) (1 + a) b). split; [exact Un|].
      intros j Hj. rewrite fn_mtab by lia. reflexivity.
    + eapply IH; eauto.
Qed.

End Facts.

Lemma lmax_nonneg sib d M : (0 <= lmax sib d M)%Z.
Proof.
  unfold lmax.
  assert (G : forall l (l0 : Z), (0 <= l0)%Z -> (0 <= fold_left (fun l i => fold_left (fun l j => Z.max l (sib (fn M i j))) (seq 0 d) l) l l0)%Z).
  { induction l as [|i l IH]; intros l0 H0; [exact H0|]. cbn [fold_left]. apply IH.
    assert (G' : forall l' (l1 : Z), (0 <= l1)%Z -> (0 <= fold_left (fun l j => Z.max l (sib (fn M i j))) l' l1)%Z).
    { induction l' as [|j l' IH']; intros l1 H1; [exact H1|]. cbn [fold_left]. apply IH'. lia. }
    now apply G'. }
  apply G. lia.
Qed.

Lemma lmax_ge sib d M i j : i < d -> j < d -> (sib (fn M i j) <= lmax sib d M)%Z.
Proof.
  intros Hi Hj. unfold lmax.
  assert (GI : forall i l' (l1 : Z), (l1 <= fold_left (fun l j => Z.max l (sib (fn M i j))) l' l1)%Z /\
     (forall j, In j l' -> (sib (fn M i j) <= fold_left (fun l j => Z.max l (sib (fn M i j))) l' l1)%Z)).
  { intros a. induction l' as [|b l' IH]; intros l1; cbn [fold_left]; [split; [lia|intros ? []]|].
    destruct (IH (Z.max l1 (sib (fn M a b)))) as [I1 I2]. split; [lia|]. intros c [<-|Hc]; [lia|]. now apply I2. }
  assert (GO : forall l (l0 : Z), (l0 <= fold_left (fun l i => fold_left (fun l j => Z.max l (sib (fn M i j))) (seq 0 d) l) l l0)%Z /\
     (forall i, In i l -> (sib (fn M i j) <= fold_left (fun l i => fold_left (fun l j => Z.max l (sib (fn M i j))) (seq 0 d) l) l l0)%Z)).
  { induction l as [|a l IH]; intros l0; cbn [fold_left]; [split; [lia|intros ? []]|].
    destruct (GI a (seq 0 d) l0) as [K1 K2].
    destruct (IH (fold_left (fun l j => Z.max l (sib (fn M a j))) (seq 0 d) l0)) as [I1 I2].
    split; [lia|]. intros c [<-|Hc]; [|now apply I2].
    specialize (K2 j ltac:(apply in_seq; lia)). lia. }
  apply GO. apply in_seq. lia.
Qed.

(** ** Termination, overflows *)
Section Total.
Context {X Q D : Type}.
Variable sib : Z -> Z.
Variable red : Z -> Z -> D -> Z -> mat Z -> X -> res (X * mat Z).
Variable mkx : Z -> mat Z -> X.
Variable gtest : Z -> Q -> Z -> X -> Q * bool.
Variable toint : D -> Z.
Variable d099 : D.
Notation dl_loop := (dl_loop sib red gtest).
Notation rf_loop := (rf_loop sib red mkx gtest toint d099).

(** without shift the loop does not progress *)
Lemma rf_diverges d conf shift inc lm target delta : (shift <= 0)%Z -> forall fuel fd A_in def q, (def < target)%Z ->
  rf_loop fuel fd d conf shift shift inc lm target delta A_in def q = NoFuel.
Proof using Type.
  intros Hs. induction fuel as [|fuel IH]; intros fd A_in def q Hd; cbn [RelationF.rf_loop];
    (destruct (Z.ltb_spec def target); [|lia]); [reflexivity|].
  cbv zeta. destruct (Z.leb_spec (target - def) shift); [lia|].
  unfold detect_lift_f_z. destruct fd; cbn [RelationF.dl_loop];
    (destruct (Z.ltb_spec 0 shift); [lia|]); cbn [bind]; change (0 =? 1)%Z with false; cbv iota; now apply IH.
Qed.

Variable d : nat.
Hypothesis Hd : 0 < d.
Hypothesis D13 : (Z.of_nat d <= 8192)%Z.
Hypothesis sibok : forall z, (Z.abs z < 2 ^ sib z)%Z.
Hypothesis redok : forall lm sm dl nd L x, exists x' V, red lm sm dl nd L x = Ok (x', V) /\ longs d V = true.

Lemma dl_total lm sm delta conf sh inc : (0 < inc)%Z -> forall fuel s nd L U x q, (sh - s <= Z.of_nat fuel)%Z ->
  exists f nd' U' q', dl_loop fuel d lm sm delta conf sh inc s nd L U x q = Ok (f, nd', U', q') /\
    (s < sh -> nd + 1 <= nd')%Z /\ (nd <= nd')%Z.
Proof using All.
  intros Hi. induction fuel as [|fuel IH]; intros s nd L U x q Hf; cbn [RelationF.dl_loop].
  - destruct (Z.ltb_spec s sh); [lia|]. do 4 eexists. split; [reflexivity|]. lia.
  - destruct (Z.ltb_spec s sh); [|do 4 eexists; split; [reflexivity|lia]].
    destruct (redok lm sm delta (nd + inc)%Z L x) as (x' & V & -> & Lg). cbn [bind]. rewrite Lg. cbn [guard].
    destruct (Z.ltb_spec 50 (lmax sib d U + lmax sib d V)); [do 4 eexists; split; [reflexivity|lia]|].
    destruct (lprod_ok d U V (lmax sib d U) (lmax sib d V) Hd D13 (lmax_nonneg sib d U) (lmax_nonneg sib d V) ltac:(lia)) as (W & ->).
    + intros i j Hi' Hj'. eapply Z.lt_le_trans; [apply sibok|]. apply Z.pow_le_mono_r; [lia|]. now apply lmax_ge.
    + intros i j Hi' Hj'. eapply Z.lt_le_trans; [apply sibok|]. apply Z.pow_le_mono_r; [lia|]. now apply lmax_ge.
    + cbn [bind]. cbv zeta. destruct (gtest _ _ _ _) as [q1 b]. destruct b; [do 4 eexists; split; [reflexivity|lia]|].
      destruct (IH (s + inc)%Z (nd + inc)%Z (zprod 1 d L V) W x' q1 ltac:(lia)) as (f & nd' & U' & q' & -> & I1 & I2).
      do 4 eexists. split; [reflexivity|]. lia.
Qed.

Lemma rf_total conf shift inc lm target delta : (0 < inc)%Z -> (0 < shift)%Z -> forall fuel fd ish A_in def q,
  (0 < ish <= shift)%Z -> (shift <= Z.of_nat fd)%Z -> (target - def <= Z.of_nat fuel)%Z ->
  exists r C, rf_loop fuel fd d conf shift ish inc lm target delta A_in def q = Ok (r, C).
Proof using All.
  intros Hi Hs. induction fuel as [|fuel IH]; intros fd ish A_in def q H1 H2 H3; cbn [RelationF.rf_loop].
  - destruct (Z.ltb_spec def target); [lia|]. eauto.
  - destruct (Z.ltb_spec def target); [|eauto]. cbv zeta.
    set (ish' := if (target - def <=? shift)%Z then (target - def)%Z else ish).
    assert (E : (0 < ish' <= shift)%Z) by (unfold ish'; destruct (Z.leb_spec (target - def) shift); lia).
    unfold detect_lift_f_z.
    destruct (dl_total lm (toint delta) d099 (- conf - ish') ish' inc Hi fd 0 def
                (mtab 1 d (fun _ j => fn A_in 0 j)) (id_mat d) (mkx (toint delta) (mtab d d (fun i j => fn A_in (1 + i) j))) q ltac:(lia))
      as (f & nd & U & q' & -> & I1 & I2).
    cbn [bind]. destruct (f =? 1)%Z; [eauto|]. apply IH; lia.
Qed.
End Total.
