(** * Specification: Seysen-reduced columns

    Column k of an upper triangular matrix is cut in blocks of rows, one per binary digit 1 of k:
    [k] = 13 = 8+4+1 gives the rows 0..7, 8..11 and 12; digit t gives the rows
    k - (k mod 2^(t+1)) <= i < k - (k mod 2^t).  The column is reduced if in each of its blocks it is a
    combination of the columns of that diagonal block with coefficients of absolute value at most 1/2. *)
From Coq Require Import ZArith Lia Reals Lra Arith Bool.
From Verif Require Import Spec SpecReal.
Local Open Scope R_scope.

Definition seysen_reduced (d : nat) (r : nat -> nat -> R) : Prop :=
  forall k t, (k < d)%nat ->
    let a := (k - k mod 2 ^ (t + 1))%nat in
    let e := (k - k mod 2 ^ t)%nat in
    exists y : nat -> R,
      (forall j, (a <= j < e)%nat -> Rabs (y j) <= / 2) /\
      (forall i, (a <= i < e)%nat -> r i k = sumR (e - a) (fun j => r i (a + j)%nat * y (a + j)%nat)).

(** Seysen-LLL reduced basis *)
Definition Seysen_LLL_reduced (n d : nat) (delta : R) (B : zmat) : Prop :=
  exists r, R_factor n d B r /\ seysen_reduced d r /\ lovasz_ok d delta r.
