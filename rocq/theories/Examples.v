(** * Concrete objects used in the examples and refutations (IEEE doubles) *)
From Coq Require Import ZArith Floats List Bool Lia.
From Verif Require Import Base Spec Mat FP Hlll Hlll2 Double.
Import ListNotations.
Local Open Scope Z_scope.

(** uninitialised memory all zero *)
Definition Jz : junk_t (F:=float) :=
  mkJ (fun _ _ => 0%float) (fun _ _ => 0%float) (fun _ _ => 0%float) (fun _ _ => 0%float)
      (fun _ => 0%float) (fun _ => 0%float) 0%float 0.

Definition d99 : float := 0x1.fae147ae147aep-1%float.  (* 0.99 *)

(** a knapsack basis: identity over the row (100, 37, 59) *)
Definition A1 : mat Z := [[1;0;0;100];[0;1;0;37];[0;0;1;59]].

Lemma A1_independent : independent 4 3 (fn A1).
Proof.
  intros c H j Hj. pose proof (H 0%nat ltac:(lia)) as H0. pose proof (H 1%nat ltac:(lia)) as H1.
  pose proof (H 2%nat ltac:(lia)) as H2. cbv [sumZ fn mget col nth A1] in H0, H1, H2.
  destruct j as [|[|[|j]]]; lia.
Qed.

(** dependent columns *)
Definition A2 : mat Z := [[5;0;0];[8;0;0];[13;0;0]].
