(** * Vocabulary for backward error statements: the standard model of floating-point
      arithmetic, R factors of real matrices, and the error constants *)
From Coq Require Import ZArith Lia Reals Lra Arith List Bool.
From Verif Require Import FP SpecReal.
Local Open Scope R_scope.

(** [y] is [x] with one rounding *)
Definition rnd1 (u x y : R) : Prop := exists e, Rabs e <= u /\ y = x * (1 + e).

(** The standard model (Higham, Accuracy and Stability of Numerical Algorithms, 2.4): [val] gives the
    real number a floating-point number stands for; every operation is the exact one with a relative
    error at most [u]; addmul and submul are rounded once or twice; comparisons and signs are exact.
    No overflow and no underflow: the exponent is unbounded. *)
Record standard {F} (u : R) (fp : fpops F) (val : F -> R) : Prop := {
  s_zero : val (fzero fp) = 0;
  s_one : val (fone fp) = 1;
  s_eps : 0 <= val (feps fp);
  s_add : forall a b, rnd1 u (val a + val b) (val (fadd fp a b));
  s_mul : forall a b, rnd1 u (val a * val b) (val (fmul fp a b));
  s_div : forall a b, val b <> 0 -> rnd1 u (val a / val b) (val (fdiv fp a b));
  s_sqrt : forall a, 0 <= val a -> rnd1 u (sqrt (val a)) (val (fsqrt fp a));
  s_neg : forall a, val (fneg fp a) = - val a;
  s_abs : forall a, val (fabs fp a) = Rabs (val a);
  s_addmul : forall r a b, exists p, rnd1 u (val a * val b) p /\ rnd1 u (val r + p) (val (faddmul fp r a b));
  s_submul : forall r a b, exists p, rnd1 u (val a * val b) p /\ rnd1 u (val r - p) (val (fsubmul fp r a b));
  s_setz : forall z, rnd1 u (IZR z) (val (fset_z fp z));
  s_le : forall a b, fle fp a b = true <-> val a <= val b;
  s_cmp : forall a b, fcmp1 fp a b = true <-> val b < val a;
  s_rnd : forall a, fnz fp (frnd fp a) = false -> Rabs (val a) <= / 2 }.

(** the d columns of the n x d real matrix [M] have the R factor [r]: M^T M = r^T r, with [r] upper triangular *)
Definition R_factor_of (n d : nat) (M r : nat -> nat -> R) : Prop :=
  (forall i j, (j < i < d)%nat -> r i j = 0) /\
  (forall j l, (j < d)%nat -> (l < d)%nat -> sumR d (fun i => r i j * r i l) = sumR n (fun i => M i j * M i l)).

(** squared length of a real vector *)
Definition sq (n : nat) (v : nat -> R) : R := sumR n (fun i => v i * v i).

(** k roundings: the largest relative change of a number by k factors 1 + e or 1/(1 + e), |e| <= u *)
Definition acc (u : R) (k : nat) : R := / (1 - u) ^ k - 1.
(** one reflector applied to a vector of length n, relatively to the length of the vector *)
Definition eta (u : R) (n : nat) : R := 3 * acc u (5 * n + 19).
(** column j: the conversion of the integers and j + 1 reflectors *)
Definition gam (u : R) (n j : nat) : R := / (1 - u) * (1 + eta u n) ^ S j - 1.
