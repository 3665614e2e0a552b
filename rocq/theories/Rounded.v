(** * Correctly rounded arithmetic with relative error u (MPFR at any precision, exponents unbounded) *)
From Coq Require Import ZArith Lia Reals Lra Psatz Bool.
From Flocq Require Import Core Relative.
From Verif Require Import FP SpecReal SpecCert Exact.
Local Open Scope R_scope.

(** what the standard model of floating-point arithmetic gives, and comparisons are exact *)
Record rounded (u : R) (fp : fpops R) : Prop := {
  r_one : fone fp = 1;
  r_eps : 0 <= feps fp;
  r_add : forall a b, Rabs (fadd fp a b - (a + b)) <= u * Rabs (a + b);
  r_mul : forall a b, Rabs (fmul fp a b - a * b) <= u * Rabs (a * b);
  r_div : forall a b, b <> 0 -> Rabs (fdiv fp a b - a / b) <= u * Rabs (a / b);
  r_sqrt : forall a, 0 <= a -> Rabs (fsqrt fp a - sqrt a) <= u * sqrt a;
  r_neg : forall a, fneg fp a = - a;
  r_abs : forall a, fabs fp a = Rabs a;
  (* one rounding or two *)
  r_addmul : forall r a b, 0 <= r -> 0 <= a * b -> 0 <= faddmul fp r a b <= (1 + u) * (r + (1 + u) * (a * b));
  r_setz : forall z, Rabs (fset_z fp z - IZR z) <= u * Rabs (IZR z);
  r_le : forall a b, fle fp a b = true <-> a <= b;
  r_cmp : forall a b, fcmp1 fp a b = true <-> b < a;
  r_rnd : forall a, fnz fp (frnd fp a) = false -> Rabs a <= / 2 }.

(** ** MPFR with p bits, round to nearest even, no bound on the exponent *)
Section Flx.
Variable p : Z.
Hypothesis Hp : (1 < p)%Z.
Notation rd := (round radix2 (FLX_exp p) ZnearestE).
Definition unit : R := / 2 * bpow radix2 (- p + 1).

Definition flx : fpops R := mk_fpops R 0 1 (rd (/ 10)) (rd (/ 100)) (rd (/ 100000000000))
  (fun a b => rd (a + b)) (fun a b => rd (a - b)) (fun a b => rd (a * b)) (fun a b => rd (a / b)) Ropp Rabs (fun a => rd (sqrt a))
  (fun x => rd (IZR (ZnearestE x)))
  (fun r a b => rd (r + a * b)) (fun r a b => rd (r - a * b))
  Rleb Rltb (fun a b => Rltb b a) (fun a => negb (Rleb a 0 && Rleb 0 a)) (fun z => rd (IZR z))
  (fun x => (ZnearestE x, 0%Z)) ZnearestE.

Instance flx_prec : Prec_gt_0 p. Proof. unfold Prec_gt_0. lia. Qed.

Lemma rd_err x : Rabs (rd x - x) <= unit * Rabs x.
Proof. apply relative_error_N_FLX. exact flx_prec. Qed.

Lemma unit_pos : 0 < unit.
Proof. unfold unit. pose proof (bpow_gt_0 radix2 (- p + 1)). lra. Qed.

Lemma unit_half : unit <= / 4.
Proof.
  unfold unit. assert (bpow radix2 (- p + 1) <= bpow radix2 (-1)) by (apply bpow_le; lia).
  change (bpow radix2 (-1)) with (/ 2) in H. lra.
Qed.

Lemma rd_pos x : 0 <= x -> 0 <= rd x.
Proof. intros H. rewrite <- (round_0 radix2 (FLX_exp p) ZnearestE). apply round_le; auto using FLX_exp_valid, valid_rnd_N with typeclass_instances. Qed.

Lemma Rleb_iff a b : Rleb a b = true <-> a <= b.
Proof. unfold Rleb. destruct (Rle_dec a b); split; intros; auto; try discriminate; contradiction. Qed.
Lemma Rltb_iff a b : Rltb a b = true <-> a < b.
Proof. unfold Rltb. destruct (Rlt_dec a b); split; intros; auto; try discriminate; contradiction. Qed.

Lemma flx_rounded : rounded unit flx.
Proof.
  pose proof unit_pos as U. split; cbn; intros; auto using rd_err.
  - apply rd_pos. lra.
  - pose proof (rd_err (sqrt a)) as E. now rewrite (Rabs_pos_eq (sqrt a)) in E by apply sqrt_pos.
  - split; [apply rd_pos; nra|]. pose proof (rd_err (r + a * b)) as E. rewrite (Rabs_pos_eq (r + a * b)) in E by nra.
    apply Rabs_le_inv in E. assert (0 <= unit * (a * b)) by nra. nra.
  - apply Rleb_iff.
  - apply Rltb_iff.
  - apply negb_false_iff, andb_true_iff in H. rewrite !Rleb_iff in H.
    assert (E : rd (IZR (ZnearestE a)) = 0) by lra.
    assert (Z0 : ZnearestE a = 0%Z).
    { apply eq_0_round_0_FLX in E; auto with typeclass_instances. now apply eq_IZR. }
    pose proof (Znearest_half (fun x => negb (Z.even x)) a) as N. rewrite Z0 in N. now rewrite Rminus_0_r in N.
Qed.

Lemma flx_expo : expo_nonneg flx.
Proof. intros a. cbn. lia. Qed.
End Flx.
