(** * Properties C57, C58, C59: FPTuple_f::relation (relations_f.cc) *)
From Coq Require Import ZArith Lia List Bool Arith.
From Verif Require Import Base Spec Mat FP Hlll IntSteps HlllInt LinDep Structure MachInt Trunc Relation RelationF.
Import ListNotations.
Local Open Scope nat_scope.

(** ** C57 *)

(** relation() returns 0, or 1 with a d x 1 vector C; in that case the value that passed the gap test is exactly
    |row . C| (1 if it is 0), row = the input scaled by 2^alpha and rounded - whatever the reduction did *)
Theorem C57_tested_value : forall X Q D (sib : Z -> Z) (red : Z -> Z -> D -> Z -> mat Z -> X -> res (X * mat Z)) mkx
    (gtest : Z -> Q -> Z -> X -> Q * bool) qinit toint d099 fuel fd d conv alpha conf shift inc lm sizemethod delta r C,
  relation_f sib red mkx gtest qinit toint d099 fuel fd d conv alpha conf shift inc lm sizemethod delta = Ok (r, C) ->
  r = 0%Z \/
  r = 1%Z /\ wfm d 1 C /\
  let v := sumZ d (fun j => fn (conv alpha) 0%nat j * fn C j 0%nat)%Z in
  exists exponent quot x quot', gtest exponent quot (if (v =? 0)%Z then 1%Z else Z.abs v) x = (quot', true).
Proof.
  intros until C. intros H. unfold relation_f, relation_f_z in H. cbv zeta in H.
  eapply rf_candidate in H; [|apply rf_start]. destruct H as [H|(H1 & H2 & H3)]; [now left|]. right. auto.
Qed.

(** if the reductions return unimodular transformations, C is primitive (in particular non-zero) *)
Theorem C57_primitive : forall X Q D (sib : Z -> Z) (red : Z -> Z -> D -> Z -> mat Z -> X -> res (X * mat Z)) mkx
    (gtest : Z -> Q -> Z -> X -> Q * bool) qinit toint d099 fuel fd d conv alpha conf shift inc lm sizemethod delta C,
  0 < d ->
  (forall lm sm dl nd L x x' V, red lm sm dl nd L x = Ok (x', V) -> longs d V = true -> unimodular d (fn V)) ->
  relation_f sib red mkx gtest qinit toint d099 fuel fd d conv alpha conf shift inc lm sizemethod delta = Ok (1%Z, C) ->
  primitive d (fun j => fn C j 0).
Proof.
  intros until C. intros Hd HU H. unfold relation_f, relation_f_z in H. cbv zeta in H.
  eapply (rf_unim sib red mkx gtest toint d099 d HU) in H; [|exact Hd| |reflexivity].
  - destruct H as (M & (Mi & I1 & I2) & E). intros g Hg.
    assert (Dv : (g | sumZ d (fun j => Mi 0%nat j * fn C j 0%nat))%Z).
    { assert (G : forall k, k <= d -> (g | sumZ k (fun j => Mi 0%nat j * fn C j 0%nat))%Z).
      { induction k as [|k IH]; intros Hk; [apply Z.divide_0_r|]. cbn [sumZ]. apply Z.divide_add_r; [apply IH; lia|].
        apply Z.divide_mul_r, Hg. lia. }
      apply G. lia. }
    rewrite (sumZ_ext d _ (fun j => Mi 0%nat j * M j 0%nat)%Z) in Dv by (intros; now rewrite E).
    change (sumZ d (fun j => (Mi 0%nat j * M j 0%nat)%Z)) with (mmul d Mi M 0 0) in Dv. rewrite I2 in Dv by assumption.
    rewrite mid_eq in Dv. now apply Z.divide_1_r in Dv.
  - apply (unimodular_ext d mid); [|apply unimodular_id]. intros i j Hi Hj. rewrite fn_mtab by lia. reflexivity.
Qed.

(** ** C58 *)

(** with shift >= 1, increment >= 1 and d <= 8192, every call returns and the products of long transformations never
    overflow (an overflow would be UB in the model): the limit of 50 bits on the sizes of U and V is sufficient *)
Theorem C58_returns : forall X Q D (sib : Z -> Z) (red : Z -> Z -> D -> Z -> mat Z -> X -> res (X * mat Z)) mkx
    (gtest : Z -> Q -> Z -> X -> Q * bool) qinit toint d099 fuel fd d conv alpha conf shift inc lm sizemethod delta,
  0 < d -> (Z.of_nat d <= 8192)%Z -> (0 < inc)%Z -> (0 < shift)%Z ->
  (forall z, Z.abs z < 2 ^ sib z)%Z ->
  (forall lm sm dl nd L x, exists x' V, red lm sm dl nd L x = Ok (x', V) /\ longs d V = true) ->
  (alpha <= Z.of_nat fuel)%Z -> (shift <= Z.of_nat fd)%Z ->
  exists r C, relation_f sib red mkx gtest qinit toint d099 fuel fd d conv alpha conf shift inc lm sizemethod delta = Ok (r, C).
Proof.
  intros until delta. intros Hd D13 Hi Hs Sib Red Hf Hfd. unfold relation_f, relation_f_z. cbv zeta.
  apply rf_total; try assumption; lia.
Qed.

(** with shift <= 0 (and alpha >= 1) the call never returns, whatever the input *)
Theorem C58_shift_zero_never_returns : forall X Q D (sib : Z -> Z) (red : Z -> Z -> D -> Z -> mat Z -> X -> res (X * mat Z)) mkx
    (gtest : Z -> Q -> Z -> X -> Q * bool) qinit toint d099 d conv alpha conf shift inc lm sizemethod delta,
  (shift <= 0)%Z -> (0 < alpha)%Z -> forall fuel fd,
  relation_f sib red mkx gtest qinit toint d099 fuel fd d conv alpha conf shift inc lm sizemethod delta = NoFuel.
Proof. intros. unfold relation_f, relation_f_z. cbv zeta. apply rf_diverges; lia. Qed.

(** ** C59: the parameters sizemethod and delta of relation() have no effect *)
Theorem C59_parameters_ignored : forall X Q D (sib : Z -> Z) (red : Z -> Z -> D -> Z -> mat Z -> X -> res (X * mat Z)) mkx
    (gtest : Z -> Q -> Z -> X -> Q * bool) qinit toint d099 fuel fd d conv alpha conf shift inc lm s1 s2 delta1 delta2,
  relation_f sib red mkx gtest qinit toint d099 fuel fd d conv alpha conf shift inc lm s1 delta1
  = relation_f sib red mkx gtest qinit toint d099 fuel fd d conv alpha conf shift inc lm s2 delta2.
Proof. reflexivity. Qed.

(** ** Case: two numbers, the reduction is one step of Euclid on the row *)
Definition euclid (_ _ : Z) (_ : unit) (_ : Z) (L : mat Z) (_ : unit) : res (unit * mat Z) :=
  let a := fn L 0 0 in let b := fn L 0 1 in
  Ok (tt, if (b =? 0)%Z then [[0; 1]; [1; 0]]%Z else [[0; 1]; [1; - (a / b)]]%Z).
Definition gsmall (_ : Z) (q : Z) (v : Z) (_ : unit) : Z * bool := (v, (v <=? 1)%Z).
Example C57_case :
  relation_f sizeinbase2 euclid (fun _ _ => tt) gsmall (fun z => z) (fun _ => 0%Z) tt 20 20 2 (fun _ => [[18]; [12]]%Z) 20 60 6 2 0 0 tt
  = Ok (1%Z, [[-2; 3]]%Z).
Proof. vm_compute. reflexivity. Qed.
(** the transformations of [euclid] are unimodular *)
Example C57_primitive_case : forall lm sm dl nd L x x' V, euclid lm sm dl nd L x = Ok (x', V) -> longs 2 V = true -> unimodular 2 (fn V).
Proof.
  intros until V. unfold euclid. intros [= _ <-] _. destruct (_ =? 0)%Z.
  - exists (fn [[0; 1]; [1; 0]]%Z). split; intros [|[|i]] [|[|j]] Hi Hj; try lia; reflexivity.
  - set (q := (fn L 0%nat 0%nat / fn L 0%nat 1%nat)%Z). exists (fn [[q; 1]; [1; 0]]%Z).
    split; intros [|[|i]] [|[|j]] Hi Hj; try lia; unfold mmul, fn, mget, col, mid; cbn -[Z.mul Z.add Z.opp]; ring.
Qed.
Example C58_case : (forall z, Z.abs z < 2 ^ sizeinbase2 z)%Z /\
  forall lm sm dl nd L x, exists x' V, (fun lm sm dl nd L x => let* (y, V) := euclid lm sm dl nd L x in
     if longs 2 V then Ok (y, V) else Ok (y, [[1; 0]; [0; 1]]%Z)) lm sm dl nd L x = Ok (x', V) /\ longs 2 V = true.
Proof.
  split.
  - intros z. pose proof (sizeinbase2_pos z). apply sizeinbase2_lt; lia.
  - intros. unfold euclid. cbn [bind]. destruct (longs 2 _) eqn:E; do 2 eexists; split; try reflexivity; try exact E.
Qed.

Print Assumptions C57_tested_value.
Print Assumptions C57_primitive.
Print Assumptions C58_returns.
Print Assumptions C58_shift_zero_never_returns.
Print Assumptions C59_parameters_ignored.
