(** * Specification vocabulary: reduced up to size reduction, and the quantities isreduced prints *)
From Coq Require Import ZArith Lia Reals Lra Arith Bool List.
From Verif Require Import Spec SpecReal.
Local Open Scope R_scope.

(** integer matrix, zero below the diagonal, ones on it *)
Definition unitriangular (d : nat) (T : zmat) : Prop :=
  forall i j, (i < d)%nat -> (j < d)%nat -> ((j < i)%nat -> T i j = 0%Z) /\ (i = j -> T i j = 1%Z).

(** multiples of earlier columns can be added to the columns of A so that the result is LLL-reduced *)
Definition LLL_up_to_size (n d : nat) (delta : R) (A : zmat) : Prop :=
  exists T, unitriangular d T /\ LLL_reduced n d delta (mmul d A T).

(** the Lovasz conditions hold whatever multiple of column i is subtracted from column i+1 *)
Definition lovasz_any (d : nat) (delta : R) (r : nat -> nat -> R) : Prop :=
  forall i (z : Z), (S i < d)%nat ->
    delta * (r i i * r i i) <=
    (r i (S i) - IZR z * r i i) * (r i (S i) - IZR z * r i i) + r (S i) (S i) * r (S i) (S i).

(** the largest factor not above 1 for which the Lovasz conditions hold *)
Definition best_delta (d : nat) (r : nat -> nat -> R) (dl : R) : Prop :=
  dl <= 1 /\ lovasz_ok d dl r /\ forall dl', dl' <= 1 -> lovasz_ok d dl' r -> dl' <= dl.

(** the weak size reduction of Chang, Stehle and Villard: |r_ij| <= eta |r_ii| + theta |r_jj| *)
Definition weakly_size_reduced (d : nat) (eta theta : R) (r : nat -> nat -> R) : Prop :=
  forall i j, (i < j < d)%nat -> Rabs (r i j) <= eta * Rabs (r i i) + theta * Rabs (r j j).
