(** * What the tests of hlll say about an upper triangular matrix, in any arithmetic

    [r i j] is the entry (i,j) of the matrix that getR returns; every operation below is the
    (rounded) operation of the arithmetic [fp]. *)
From Coq Require Import ZArith List Arith.
From Verif Require Import FP.

Section Cert.
Context {F : Type} (fp : fpops F).

(** the Lovasz test between columns k-1 and k: delta r(k-1,k-1)^2 <= r(k,k)^2 + r(k-1,k)^2,
    where r(k,k) is used up to sign *)
Definition lovasz_test (delta : F) (r : nat -> nat -> F) (k : nat) : Prop :=
  exists s, (r k k = s \/ r k k = fneg fp s) /\
    fle fp (fmul fp delta (fmul fp (r (k - 1) (k - 1)) (r (k - 1) (k - 1))))
           (fadd fp (fmul fp s s) (fmul fp (r (k - 1) k) (r (k - 1) k))) = true.

(** size reduction of column k: all the rounded quotients are 0, or none exceeds 1 by more than
    theta / |r(i,i)| *)
Definition size_test (theta : F) (r : nat -> nat -> F) (k : nat) : Prop :=
  (forall i, i < k -> fnz fp (frnd fp (fdiv fp (r i k) (r i i))) = false) \/
  (forall i, i < k ->
     fcmp1 fp (fabs fp (fdiv fp (r i k) (r i i))) (fadd fp (fabs fp (fdiv fp theta (r i i))) (fone fp)) = false).

(** the computed sum of the squares of the first l entries of a vector (of the first one when l = 0) *)
Fixpoint sumsq (v : nat -> F) (l : nat) : F :=
  match l with
  | S (S m as l') => faddmul fp (sumsq v l') (v (S m)) (v (S m))
  | _ => fmul fp (v 0) (v 0)
  end.

(** the tolerance of the size test for an integer column b: the computed length times epsilon *)
Definition tolerance (b : nat -> Z) (l : nat) : F :=
  fmul fp (fsqrt fp (sumsq (fun i => fset_z fp (b i)) l)) (feps fp).

(** back substitution in the block that ends before row e: what is left of r(i,k) when the last m
    columns e-1, ..., e-m of the block have been removed *)
Fixpoint residual (r : nat -> nat -> F) (k e m i : nat) : F :=
  match m with
  | O => r i k
  | S m' => fsubmul fp (residual r k e m' i) (r i (e - m)) (fdiv fp (residual r k e m' (e - m)) (r (e - m) (e - m)))
  end.

(** the coefficient of column j *)
Definition block_coef (r : nat -> nat -> F) (k e j : nat) : F :=
  fdiv fp (residual r k e (e - 1 - j) j) (r j j).

(** Seysen's test of column k: in each of the blocks given by the binary digits of k, no coefficient
    exceeds [bound] *)
Definition blocks_test (bound : F) (r : nat -> nat -> F) (k : nat) : Prop :=
  forall t, let a := k - k mod 2 ^ (t + 1) in let e := k - k mod 2 ^ t in
  forall j, a <= j < e -> fcmp1 fp (fabs fp (block_coef r k e j)) bound = false.

End Cert.
