(** * Property C84: relations by lifting, lift_z (lift.cc) *)
From Coq Require Import ZArith Lia List Bool Arith.
From Verif Require Import Base Spec Mat FP Hlll IntSteps HlllInt LinDep Structure MachInt Trunc Relation RelationF Lift PropRelF.
Import ListNotations.
Local Open Scope nat_scope.

(** lift_z returns 0, or 1 with a d x 1 vector C; in that case the value that passed the gap test is exactly |A . C|
    (1 if it is 0) - whatever the inner reduction did *)
Theorem C84_tested_value : forall X Q D (sib : Z -> Z) (red : Z -> Z -> D -> Z -> mat Z -> X -> res (X * mat Z)) mkx
    (gtest : Z -> Q -> Z -> X -> Q * bool) q1 fuel fd d A alpha conf shift inc lm delta r C,
  lift_z sib red mkx gtest q1 fuel fd d A alpha conf shift inc lm delta = Ok (r, C) ->
  r = 0%Z \/
  r = 1%Z /\ wfm d 1 C /\
  let v := sumZ d (fun j => fn A 0%nat j * fn C j 0%nat)%Z in
  exists exponent quot x quot', gtest exponent quot (if (v =? 0)%Z then 1%Z else Z.abs v) x = (quot', true).
Proof.
  intros until C. intros H. unfold lift_z in H. cbv zeta in H.
  eapply lift_candidate in H; [|apply rf_start]. destruct H as [H|(H1 & H2 & H3)]; [now left|]. right. auto.
Qed.

(** if the reductions return unimodular transformations, C is primitive (in particular non-zero) *)
Theorem C84_primitive : forall X Q D (sib : Z -> Z) (red : Z -> Z -> D -> Z -> mat Z -> X -> res (X * mat Z)) mkx
    (gtest : Z -> Q -> Z -> X -> Q * bool) q1 fuel fd d A alpha conf shift inc lm delta C,
  0 < d ->
  (forall lm sm dl nd L x x' V, red lm sm dl nd L x = Ok (x', V) -> longs d V = true -> unimodular d (fn V)) ->
  lift_z sib red mkx gtest q1 fuel fd d A alpha conf shift inc lm delta = Ok (1%Z, C) ->
  primitive d (fun j => fn C j 0).
Proof.
  intros until C. intros Hd HU H. unfold lift_z in H. cbv zeta in H.
  eapply (lift_unim sib red mkx gtest d HU) in H; [|exact Hd| |reflexivity].
  - destruct H as (M & (Mi & I1 & I2) & E). intros g Hg.
    assert (Dv : (g | sumZ d (fun j => Mi 0%nat j * fn C j 0%nat))%Z).
    { assert (G : forall k, k <= d -> (g | sumZ k (fun j => Mi 0%nat j * fn C j 0%nat))%Z).
      { induction k as [|k IH]; intros Hk; [apply Z.divide_0_r|]. cbn [sumZ]. apply Z.divide_add_r; [apply IH; lia|].
        apply Z.divide_mul_r, Hg. lia. }
      apply G. lia. }
    rewrite (sumZ_ext d _ (fun j => Mi 0%nat j * M j 0%nat)%Z) in Dv by (intros; now rewrite E).
    change (sumZ d (fun j => (Mi 0%nat j * M j 0%nat)%Z)) with (mmul d Mi M 0 0) in Dv. rewrite I2 in Dv by assumption.
    rewrite mid_eq in Dv. now apply Z.divide_1_r in Dv.
  - apply (unimodular_ext d mid); [|apply unimodular_id]. intros i j Hi Hj. rewrite fn_mtab by lia. reflexivity.
Qed.

(** with shift >= 1, increment >= 1 and d <= 8192 every call returns and no product of longs overflows *)
Theorem C84_returns : forall X Q D (sib : Z -> Z) (red : Z -> Z -> D -> Z -> mat Z -> X -> res (X * mat Z)) mkx
    (gtest : Z -> Q -> Z -> X -> Q * bool) q1 fuel fd d A alpha conf shift inc lm delta,
  0 < d -> (Z.of_nat d <= 8192)%Z -> (0 < inc)%Z -> (0 < shift)%Z ->
  (forall z, Z.abs z < 2 ^ sib z)%Z ->
  (forall lm sm dl nd L x, exists x' V, red lm sm dl nd L x = Ok (x', V) /\ longs d V = true) ->
  (alpha <= Z.of_nat fuel)%Z -> (shift <= Z.of_nat fd)%Z ->
  exists r C, lift_z sib red mkx gtest q1 fuel fd d A alpha conf shift inc lm delta = Ok (r, C).
Proof.
  intros until delta. intros Hd D13 Hi Hs Sib Red Hf Hfd. unfold lift_z. cbv zeta.
  apply lift_total; try assumption; lia.
Qed.

(** with shift <= 0 (and alpha >= 1) the call never returns, whatever the input *)
Theorem C84_shift_zero_never_returns : forall X Q D (sib : Z -> Z) (red : Z -> Z -> D -> Z -> mat Z -> X -> res (X * mat Z)) mkx
    (gtest : Z -> Q -> Z -> X -> Q * bool) q1 d A alpha conf shift inc lm delta,
  (shift <= 0)%Z -> (0 < alpha)%Z -> forall fuel fd,
  lift_z sib red mkx gtest q1 fuel fd d A alpha conf shift inc lm delta = NoFuel.
Proof. intros. unfold lift_z. cbv zeta. apply lift_diverges; lia. Qed.

(** a run: two numbers, the reduction is one step of Euclid; its transformations are unimodular ([C57_primitive_case]) and
    [C58_case] meets the other hypotheses *)
Example C84_case :
  lift_z sizeinbase2 euclid (fun _ => tt) gsmall 1%Z 20 20 2 [[18]; [12]]%Z 20 60 6 2 0 tt = Ok (1%Z, [[-2; 3]]%Z).
Proof. vm_compute. reflexivity. Qed.

Print Assumptions C84_tested_value.
Print Assumptions C84_primitive.
Print Assumptions C84_returns.
Print Assumptions C84_shift_zero_never_returns.
