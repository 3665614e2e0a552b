(** * Properties C54, C55, C56: the real FGAS decomposition (decomp.cc) and relations_hjls (hjls.cc) *)
From Coq Require Import ZArith Lia List Bool Arith Reals Lra Floats.
From Verif Require Import Base Spec SpecReal Mat FP Hlll IntSteps HlllInt LinDep Structure MachInt ZFgas.
From Verif Require Import Fgas FgasInt FgasExact Hjls Double Examples PropKernel.
Import ListNotations.
Local Open Scope nat_scope.

Lemma new_tinv {F T} (rt : rtops F T) d n dec transf J A r :
  tinv n dec transf mid (gx (new_fgas rt d n dec transf J A r)).
Proof.
  apply id_inv; unfold new_fgas; cbn [gx xW xU]; [reflexivity|]. intros K. now rewrite K.
Qed.

Lemma V_eq {F T} (z : fgas F T) n : meq n n (fn (ggetV n z)) (fn (xW (gx z))).
Proof. intros i j Hi Hj. unfold ggetV. now apply fn_mtab. Qed.

(** ** C54 *)

(** whatever the floating-point types do and whatever public methods were called: getV() is unimodular, and the
    transpose of getU() is its inverse *)
Theorem C54_decomposition : forall F T (fp : fpops F) (rt : rtops F T) d n dec transf gap epsilon ubound fuel J A r ops z,
  gcalls fp rt d n dec transf gap epsilon ubound fuel ops (new_fgas rt d n dec transf J A r) = Ok z ->
  unimodular n (fn (ggetV n z)) /\
  (transf = true -> meq n n (mmul n (mtr (fn (ggetU n transf z))) (fn (ggetV n z))) mid).
Proof.
  intros F T fp rt d n dec transf gap epsilon ubound fuel J A r ops z H. apply gcalls_steps in H.
  destruct (xsteps_inv rt d n dec transf mid _ _ H (new_tinv rt d n dec transf J A r)) as (P & W1 & W2 & I1 & I2 & EU & _).
  set (W := fn (xW (gx z))) in *.
  assert (T1 : meq n n (mmul n (mtr P) W) mid).
  { intros i j Hi Hj. transitivity (mmul n (mtr W) P j i).
    - unfold mmul, mtr. apply sumZ_ext. intros l Hl. ring.
    - rewrite I2 by assumption. unfold mid. now rewrite Nat.eqb_sym. }
  assert (T2 : meq n n (mmul n W (mtr P)) mid).
  { intros i j Hi Hj. transitivity (mmul n P (mtr W) j i).
    - unfold mmul, mtr. apply sumZ_ext. intros l Hl. ring.
    - rewrite I1 by assumption. unfold mid. now rewrite Nat.eqb_sym. }
  split.
  - apply (unimodular_ext n W); [apply meq_sym, V_eq|]. exists (mtr P). auto.
  - intros Ht. subst transf. eapply meq_trans; [|exact T1]. apply mmul_ext; [|apply V_eq].
    intros i j Hi Hj. unfold mtr, ggetU. rewrite fn_mtab by assumption.
    specialize (EU eq_refl). now rewrite EU.
Qed.

(** with exact RT arithmetic the matrix of getfgas() generates the same module: Finput = getfgas() . getV()^T, and
    getfgas() = Finput . getU() *)
Theorem C54_exact : forall F (fp : fpops F) (rt : rtops F R) d n dec transf gap epsilon ubound fuel J A r ops z,
  rt_exact rt -> n = d + dec ->
  gcalls fp rt d n dec transf gap epsilon ubound fuel ops (new_fgas rt d n dec transf J A r) = Ok z ->
  (forall i j, i < d -> j < n ->
     mget 0%R A i j = sumR n (fun k => mget 0 (ggetfgas rt d n z) i k * IZR (fn (ggetV n z) j k))%R) /\
  (transf = true -> forall i j, i < d -> j < n ->
     mget 0%R (ggetfgas rt d n z) i j = sumR n (fun k => mget 0 A i k * IZR (fn (ggetU n transf z) k j))%R).
Proof.
  intros F fp rt d n dec transf gap epsilon ubound fuel J A r ops z X Hn H. apply gcalls_steps in H.
  set (z0 := new_fgas rt d n dec transf J A r) in *. pose proof (te_zero _ X) as X0.
  assert (E0 : einv d n dec (mget 0%R A) (mget 0%R r) mid (gx z0)).
  { apply (start_einv rt d n dec transf); try assumption.
    - apply mtab_wfm.
    - intros D. unfold z0, new_fgas. cbn [gx xY]. apply Nat.ltb_lt in D. rewrite D. apply mtab_wfm.
    - apply new_tinv.
    - intros i j Hi Hj. now apply id_mat_fn.
    - intros i j Hi Hj. unfold z0, new_fgas. cbn [gx xF]. rewrite mget_mtab by assumption. now rewrite X0.
    - intros i j Hi Hj. unfold z0, new_fgas. cbn [gx xY]. assert (D : (0 <? dec) = true) by (apply Nat.ltb_lt; lia).
      rewrite D, mget_mtab by assumption. now rewrite X0. }
  destruct (xsteps_einv rt X d n dec transf Hn _ _ mid _ _ H (new_tinv rt d n dec transf J A r) E0) as (P & I & E).
  destruct I as (W1 & W2 & I1 & I2 & EU & _). destruct E as (_ & _ & EF & _).
  assert (GF : forall i j, i < d -> j < n -> mget 0%R (ggetfgas rt d n z) i j = mget 0%R (xF (gx z)) i j).
  { intros i j Hi Hj. unfold ggetfgas. rewrite X0. now rewrite mget_mtab. }
  split.
  - intros i j Hi Hj.
    rewrite (sumR_ext n _ (fun k => sumR n (fun l => mget 0 A i l * IZR (P l k) * IZR (fn (xW (gx z)) j k))%R)).
    + rewrite sumR_swap. rewrite (sumR_single n j).
      * rewrite (sumR_ext n _ (fun k => mget 0 A i j * IZR (P j k * mtr (fn (xW (gx z))) k j)%Z)%R).
        -- rewrite sumR_mul_l, <- sumZ_IZR. fold (mmul n P (mtr (fn (xW (gx z)))) j j). rewrite I1 by assumption.
           unfold mid. rewrite Nat.eqb_refl. lra.
        -- intros k Hk. rewrite mult_IZR. unfold mtr. ring.
      * assumption.
      * intros l Hl Nl.
        rewrite (sumR_ext n _ (fun k => mget 0 A i l * IZR (P l k * mtr (fn (xW (gx z))) k j)%Z)%R).
        -- rewrite sumR_mul_l, <- sumZ_IZR. fold (mmul n P (mtr (fn (xW (gx z)))) l j). rewrite I1 by assumption.
           unfold mid. apply Nat.eqb_neq in Nl. rewrite Nl. lra.
        -- intros k Hk. rewrite mult_IZR. unfold mtr. ring.
    + intros k Hk. rewrite GF, EF by assumption. rewrite <- sumR_mul_r. rewrite V_eq by assumption. reflexivity.
  - intros Ht i j Hi Hj. rewrite GF, EF by assumption. apply sumR_ext. intros k Hk. f_equal. f_equal.
    unfold ggetU. rewrite Ht, fn_mtab by assumption. symmetry. apply EU; [subst transf; reflexivity| |]; assumption.
Qed.

(** decomp() returns 0 only when ldim has reached the target, and -1 otherwise *)
Theorem C54_return : forall F T (fp : fpops F) (rt : rtops F T) d n dec transf gap epsilon ubound fuel gamma target size z r z',
  gdecomp fp rt d n dec transf gap epsilon ubound fuel gamma target size z = Ok (r, z') ->
  (r = 0%Z /\ (target <= Z.of_nat (gldim z'))%Z /\ gldim z' <= d) \/ r = (-1)%Z.
Proof. intros until z'. intros H. now apply gdecomp_steps in H as [_ H]. Qed.

(** ** C55: relations_hjls *)

(** the columns returned are nbrel columns of a unimodular n x n matrix *)
Theorem C55_columns : forall F T (fp : fpops F) (rt : rtops F T) d n nbrel gap epsilon ubound fuel gamma J jB A r C,
  relations_hjls fp rt d n nbrel gap epsilon ubound fuel gamma J jB A = Ok (r, C) -> r <> (-1)%Z ->
  r = Z.of_nat nbrel /\ nbrel <= n /\ wfm n nbrel C /\
  exists M, unimodular n M /\ forall i j, i < n -> j < nbrel -> fn C i j = M i (n - nbrel + j).
Proof.
  intros F T fp rt d n nbrel gap epsilon ubound fuel gamma J jB A r C H Hr. unfold relations_hjls in H. cbv zeta in H.
  binv H. destruct a as [flag z]. destruct (Z.eqb_spec flag (-1)) as [|Nf]; [injection H as <- <-; congruence|].
  apply guard_Ok in H as [G H].
  destruct (_ =? nbrel) in H; [|injection H as <- <-; congruence]. injection H as <- <-. clear Hr.
  apply gdecomp_steps in Ha as [S [(-> & L1 & L2)|]]; [|congruence]. clear Nf.
  split; [reflexivity|]. split; [lia|]. split; [apply mtab_wfm|].
  set (z0 := new_fgas rt n (n + d) d false J (hj_input rt d n jB A) (hj_input rt d n jB A)) in *.
  destruct (xsteps_inv rt n (n + d) d false mid _ _ S (new_tinv rt n (n + d) d false _ _ _)) as (P & I).
  pose proof (block_unimodular (n + d) d false P _ ltac:(lia) I) as [B1 B2].
  replace (n + d - d) with n in B1, B2 by lia.
  exists (fun a b => fn (xW (gx z)) (d + a) (d + b)). split; [eexists; split; eauto|].
  intros i j Hi Hj. rewrite fn_mtab by assumption. rewrite V_eq by lia. f_equal. lia.
Qed.

(** hence the sublattice of Z^n they generate is primitive: an integer vector with a non-zero multiple in it belongs
    to it *)
Theorem C55_primitive : forall F T (fp : fpops F) (rt : rtops F T) d n nbrel gap epsilon ubound fuel gamma J jB A r C,
  relations_hjls fp rt d n nbrel gap epsilon ubound fuel gamma J jB A = Ok (r, C) -> r <> (-1)%Z ->
  independent n nbrel (fn C) /\
  forall (v : nat -> Z) (m : Z), m <> 0%Z ->
    in_lattice n nbrel (fn C) (fun i => m * v i)%Z -> in_lattice n nbrel (fn C) v.
Proof.
  intros F T fp rt d n nbrel gap epsilon ubound fuel gamma J jB A r C H Hr.
  destruct (C55_columns _ _ _ _ _ _ _ _ _ _ _ _ _ _ _ _ _ H Hr) as (_ & Hb & W & M & (Mi & M1 & M2) & EC). clear H Hr.
  (* coordinates in the basis M: C y = M (0, y) *)
  assert (CY : forall y i, i < n -> sumZ nbrel (fun j => fn C i j * y j)%Z
               = sumZ n (fun k => M i k * (if (n - nbrel <=? k)%nat then y (k - (n - nbrel))%nat else 0))%Z).
  { intros y i Hi. replace n with ((n - nbrel) + nbrel) at 1 by lia. rewrite sumZ_split.
    rewrite (sumZ_0 (n - nbrel)).
    - rewrite Z.add_0_l. apply sumZ_ext. intros j Hj. rewrite EC by assumption.
      assert (Q : (n - nbrel <=? n - nbrel + j) = true) by (apply Nat.leb_le; lia). rewrite Q.
      do 2 f_equal. lia.
    - intros k Hk. assert (Q : (n - nbrel <=? k) = false) by (apply Nat.leb_gt; lia). rewrite Q. ring. }
  (* multiplying by the inverse *)
  assert (INV : forall (w x : nat -> Z), (forall i, i < n -> w i = sumZ n (fun k => M i k * x k)%Z) ->
                forall l, l < n -> sumZ n (fun i => Mi l i * w i)%Z = x l).
  { intros w x E l Hl. transitivity (sumZ n (fun i => sumZ n (fun k => Mi l i * M i k * x k)%Z)).
    - apply sumZ_ext. intros i Hi. rewrite E by assumption. rewrite <- sumZ_mul_l. apply sumZ_ext. intros; ring.
    - rewrite sumZ_swap. rewrite (sumZ_single n l).
      + rewrite sumZ_mul_r. fold (mmul n Mi M l l). rewrite M2 by assumption. unfold mid. rewrite Nat.eqb_refl. ring.
      + assumption.
      + intros k Hk Nk. rewrite sumZ_mul_r. fold (mmul n Mi M l k). rewrite M2 by assumption. unfold mid.
        destruct (Nat.eqb_spec l k); [congruence|ring]. }
  split.
  - intros y Hy j Hj. pose proof (INV (fun _ => 0%Z) _ (fun i Hi => eq_trans (eq_sym (Hy i Hi)) (CY y i Hi))
                                    (n - nbrel + j) ltac:(lia)) as E. cbv beta in E.
    rewrite sumZ_0 in E by (intros; ring).
    assert (Q : (n - nbrel <=? n - nbrel + j) = true) by (apply Nat.leb_le; lia). rewrite Q in E.
    replace (n - nbrel + j - (n - nbrel)) with j in E by lia. now symmetry.
  - intros v m Hm (y & Hy).
    set (x := fun l => sumZ n (fun i => Mi l i * v i)%Z).
    assert (MX : forall l, l < n -> (m * x l)%Z = if n - nbrel <=? l then y (l - (n - nbrel)) else 0%Z).
    { intros l Hl. rewrite <- (INV (fun i => m * v i)%Z _ (fun i Hi => eq_trans (Hy i Hi) (CY y i Hi)) l Hl).
      unfold x. rewrite <- sumZ_mul_l. apply sumZ_ext. intros; ring. }
    exists (fun j => x (n - nbrel + j)). intros i Hi. rewrite CY by assumption.
    transitivity (sumZ n (fun k => M i k * x k)%Z).
    + unfold x. transitivity (sumZ n (fun k => sumZ n (fun l => M i k * Mi k l * v l)%Z)).
      * rewrite sumZ_swap. rewrite (sumZ_single n i).
        -- rewrite sumZ_mul_r. fold (mmul n M Mi i i). rewrite M1 by assumption. unfold mid. rewrite Nat.eqb_refl. ring.
        -- assumption.
        -- intros k Hk Nk. rewrite sumZ_mul_r. fold (mmul n M Mi i k). rewrite M1 by assumption. unfold mid.
           destruct (Nat.eqb_spec i k); [congruence|ring].
      * apply sumZ_ext. intros k Hk. rewrite <- sumZ_mul_l. apply sumZ_ext. intros; ring.
    + apply sumZ_ext. intros k Hk. f_equal. specialize (MX k Hk).
      destruct (Nat.leb_spec (n - nbrel) k).
      * f_equal. lia.
      * rewrite Z.mul_comm in MX. apply Z.mul_eq_0_l in MX; assumption.
Qed.

(** with exact RT arithmetic, every returned vector is a relation up to epsilon *)
Theorem C55_exact : forall F (fp : fpops F) (rt : rtops F R) d n nbrel gap epsilon ubound fuel gamma J jB A r C,
  rt_exact rt ->
  relations_hjls fp rt d n nbrel gap epsilon ubound fuel gamma J jB A = Ok (r, C) -> r <> (-1)%Z ->
  forall i j, i < d -> j < nbrel -> (Rabs (sumR n (fun k => mget 0 A i k * IZR (fn C k j))) <= epsilon)%R.
Proof.
  intros F fp rt d n nbrel gap epsilon ubound fuel gamma J jB A r C X H Hr i j Hi Hj.
  unfold relations_hjls in H. cbv zeta in H. binv H. destruct a as [flag z].
  destruct (Z.eqb_spec flag (-1)) as [|Nf]; [injection H as <- <-; congruence|].
  apply guard_Ok in H as [G H].
  assert (Dn : 0 < n).
  { unfold gdecomp in Ha. apply guard_Ok in Ha as [D _]. now apply Nat.ltb_lt in D. }
  destruct (_ =? nbrel) eqn:E in H; [|injection H as <- <-; congruence]. injection H as <- <-. clear Hr.
  apply Nat.eqb_eq in E. rewrite <- (seq_length nbrel 0) in E at 2.
  pose proof (filter_full _ _ E j ltac:(apply in_seq; lia)) as Z0. cbv beta in Z0. rewrite forallb_forall in Z0.
  specialize (Z0 i ltac:(apply in_seq; lia)). set (C := mtab n nbrel _) in *.
  assert (PP : hj_prod rt n A C i j = sumR n (fun k => mget 0 A i k * IZR (fn C k j))%R).
  { unfold hj_prod. destruct X as [x0 _ _ xm xam _ _ _ xz0]. rewrite x0.
    assert (Q : forall m a, fold_left (fun acc k => taddmul rt acc (mget 0%R A i k) (tofz rt (fn C k j))) (seq 1 m) a
                 = (a + sumR m (fun k => mget 0 A i (S k) * IZR (fn C (S k) j)))%R).
    { induction m as [|m IH]; intros a; [cbn; lra|]. rewrite seq_S, fold_left_app, IH. cbn [fold_left sumR].
      rewrite xam, xz0. cbn [Nat.add]. lra. }
    rewrite Q, xm, xz0. replace n with (1 + (n - 1)) at 2 by lia. rewrite sumR_split. cbn [sumR Nat.add]. lra. }
  rewrite PP in Z0. apply negb_true_iff in Z0. rewrite (te_abs _ X) in Z0.
  destruct (Rle_dec (Rabs (sumR n (fun k => mget 0 A i k * IZR (fn C k j))%R)) epsilon) as [|N]; [assumption|].
  exfalso. apply Rnot_le_gt in N. apply (te_gt _ X) in N. congruence.
Qed.

(** ** C56: set() *)

(** on an object that has not been used, set(A, res) leaves exactly what the constructor would *)
Theorem C56_set_unused : forall F T (rt : rtops F T) d n dec transf J A r A2 r2,
  gset_ rt d n dec transf A2 r2 (new_fgas rt d n dec transf J A r) = new_fgas rt d n dec transf J A2 r2.
Proof.
  intros. unfold gset_, new_fgas, set_gx. cbn [gx xW xU xF xY gR gV gN gldim gnblov].
  assert (DG : forall M, M = id_mat n -> mtab n n (fun i j => if i =? j then 1%Z else fn M i j) = id_mat n).
  { intros M ->. apply (mat_ext 0%Z n n); [apply mtab_wfm|apply mtab_wfm|]. intros i j Hi Hj.
    rewrite mget_mtab by assumption. fold (fn (id_mat n) i j). rewrite id_mat_fn by assumption.
    unfold mid. destruct (i =? j); reflexivity. }
  f_equal. f_equal.
  - destruct (0 <? dec); reflexivity.
  - now apply DG.
  - destruct (keepU dec transf); [now apply DG|reflexivity].
Qed.

(** on a used object the off-diagonal entries of U and V and ldim survive: after set(A2), before any
    further operation, getU() and getV() are not the identity *)
Definition rtd : rtops float float := mkRT float float 0%float PrimFloat.add PrimFloat.sub PrimFloat.mul
  (fun r a b => r + a * b)%float (fun r a b => r - a * b)%float PrimFloat.div PrimFloat.abs
  (fun a b => PrimFloat.ltb b a) (fun a => PrimFloat.ltb a 0x1.12e0be826d695p-30%float) d_ofZ (fun x => x).
Definition gapd (x : float) : bool := PrimFloat.ltb x 0x1.12e0be826d695p-30%float.

Theorem C56_set_refuted :
  ~ (forall F T (fp : fpops F) (rt : rtops F T) d n dec gap epsilon ubound fuel J A r ops z A2 r2,
       gcalls fp rt d n dec true gap epsilon ubound fuel ops (new_fgas rt d n dec true J A r) = Ok z ->
       let z2 := gset_ rt d n dec true A2 r2 z in
       meq n n (fn (ggetU n true z2)) mid /\ meq n n (fn (ggetV n z2)) mid).
Proof.
  intros H.
  assert (E : exists z, gcalls dbl rtd 1 2 0 true gapd 0%float 1000 60 [Gred 0; Gred 1]
                          (new_fgas rtd 1 2 0 true Jz [[3]; [5]]%float []) = Ok z /\
                        fn (ggetU 2 true (gset_ rtd 1 2 0 true [[1]; [0]]%float [] z)) 0 1 = (-2)%Z).
  { eexists. split; vm_compute; reflexivity. }
  destruct E as (z & E1 & E2).
  destruct (H _ _ dbl rtd _ _ _ _ _ _ _ _ _ _ _ _ [[1]; [0]]%float [] E1) as [U _].
  rewrite U in E2 by lia. discriminate E2.
Qed.

(** ** Cases *)
Definition Z2 : nat -> nat -> float := fun _ _ => 0%float.
Definition Arow : mat float := [[2]; [3]; [7]]%float.
(** two relations of (2,3,7) are found *)
Example C55_case : relations_hjls dbl rtd 1 3 2 gapd 0x1p-40%float 1000 60 g11 Jz Z2 Arow
  = Ok (2%Z, [[1; -3; 1]; [-2; -1; 1]]%Z).
Proof. vm_compute. reflexivity. Qed.

(** the decomposition with its transformation (dec = 1) *)
Example C54_case : match gdecomp dbl rtd 3 4 1 true gapd 0x1p-40%float 1000 60 g11 2 1000
      (new_fgas rtd 3 4 1 true Jz (hj_input rtd 1 3 Z2 Arow) (hj_input rtd 1 3 Z2 Arow)) with
  | Ok (r, z) => (r, gldim z, negb (forallb (fun i => Z.eqb (fn (ggetV 4 z) i i) 1) (seq 0 4))) = (0%Z, 2, true)
  | _ => False end.
Proof. vm_compute. reflexivity. Qed.

(** exact RT arithmetic exists, with FT = double: here the conversion RT -> FT is so bad that every entry becomes 1, and
    the columns are still combined exactly *)
Definition rtR : rtops float R := mkRT float R 0%R Rplus Rminus Rmult (fun r a b => r + a * b)%R (fun r a b => r - a * b)%R
  Rdiv Rabs (fun a b => if Rgt_dec a b then true else false) (fun a => if Rlt_dec a (/ IZR 1000000000) then true else false)
  IZR (fun _ => 1%float).
Lemma rtR_exact : rt_exact rtR.
Proof.
  constructor; try reflexivity. intros a b. cbn. destruct (Rgt_dec a b); split; intros; try assumption; congruence.
Qed.
Example C54_exact_case : forall a b c e : R, exists z,
  gcalls dbl rtR 2 2 0 true gapd 0%R 1000 60 [Gred 0; Gred 1] (new_fgas rtR 2 2 0 true Jz [[a; b]; [c; e]] []) = Ok z /\
  xF (gx z) = [[a; b]; [c - a; e - b]]%R /\ xU (gx z) = [[1; 0]; [-1; 1]]%Z.
Proof. intros a b c e. eexists. split; [lazy -[Rminus Rplus Rmult]; reflexivity|]. split; reflexivity. Qed.

Print Assumptions C54_decomposition.
Print Assumptions C54_exact.
Print Assumptions C54_return.
Print Assumptions C55_columns.
Print Assumptions C55_primitive.
Print Assumptions C55_exact.
Print Assumptions C56_set_unused.
Print Assumptions C56_set_refuted.
