(** * The exponents computed by trunc in double precision

    [(long) (((double) tau) * 0.301029995)] with IEEE binary64 rounding to nearest even
    (Flocq's definition of rounding). *)
From Coq Require Import ZArith Lia Reals Lra.
From Flocq Require Import Core Relative.
Local Open Scope Z_scope.

Definition rnd64 (x : R) : R := round radix2 (FLT_exp (-1074) 53) ZnearestE x.
Definition c_log : R := rnd64 (301029995 / 1000000000)%R.
(** mat.h 2505-2506 *)
Definition e10_double (tau : Z) : Z := Ztrunc (rnd64 (rnd64 (IZR tau) * c_log)).
(** mat.h 2556-2557: ((double) max2 - t) * 0.301029995 *)
Definition e10_double' (max2 t : Z) : Z := Ztrunc (rnd64 (rnd64 (rnd64 (IZR max2) - rnd64 (IZR t)) * c_log)).

Lemma rnd64_err x : (bpow radix2 (-1022) <= x)%R ->
  (x * (1 - / 9007199254740992) <= rnd64 x <= x * (1 + / 9007199254740992))%R.
Proof.
  intros H.
  assert (Hx : (0 < x)%R) by (eapply Rlt_le_trans; [apply (bpow_gt_0 radix2 (-1022))|exact H]).
  pose proof (relative_error_N_FLT radix2 (-1074) 53 ltac:(reflexivity) (fun n => negb (Z.even n)) x) as E.
  rewrite (Rabs_right x) in E by lra. specialize (E H).
  assert (B : bpow radix2 (Z.opp 53 + 1) = (/ 4503599627370496)%R).
  { cbn. f_equal. }
  rewrite B in E. fold (rnd64 x) in E. apply Rabs_le_inv in E. set (y := rnd64 x) in *. clearbody y. clear B H.
  replace (/ 9007199254740992)%R with (/ 2 * / 4503599627370496)%R by lra. 
  set (e := (/ 2 * / 4503599627370496)%R) in *. lra.
Qed.

Lemma bpow_small x : (/ 1024 <= x)%R -> (bpow radix2 (-1022) <= x)%R.
Proof.
  intros H. eapply Rle_trans; [|exact H].
  replace (/ 1024)%R with (bpow radix2 (-10)) by (cbn; f_equal; f_equal; reflexivity).
  apply bpow_le. lia.
Qed.

Lemma e10_bound tau : 0 < tau ->
  0 <= e10_double tau /\ 28738 * e10_double tau <= 8651 * tau.
Proof.
  intros Ht.
  assert (T : (1 <= IZR tau)%R) by (apply IZR_le; lia).
  pose proof (rnd64_err (IZR tau) (bpow_small (IZR tau) ltac:(lra))) as B1.
  pose proof (rnd64_err (301029995 / 1000000000) (bpow_small (301029995 / 1000000000)%R ltac:(lra))) as B2. fold c_log in B2.
  set (a := rnd64 (IZR tau)) in *.
  assert (A0 : (99 / 100 <= a)%R) by lra. assert (C0 : (3 / 10 <= c_log)%R) by lra.
  assert (P0 : (29 / 100 <= a * c_log)%R).
  { apply Rle_trans with (99 / 100 * (3 / 10))%R; [lra|]. apply Rmult_le_compat; lra. }
  assert (PU : (a * c_log <= (IZR tau * (1 + / 9007199254740992)) * (301029995 / 1000000000 * (1 + / 9007199254740992)))%R).
  { apply Rmult_le_compat; lra. }
  pose proof (rnd64_err (a * c_log) (bpow_small (a * c_log)%R ltac:(lra))) as B3.
  unfold e10_double. fold a. set (r := rnd64 (a * c_log)) in *.
  assert (R0 : (0 <= r)%R) by lra.
  rewrite Ztrunc_floor by assumption. split.
  - apply Zfloor_lub. assumption.
  - pose proof (Zfloor_lb r) as L. apply le_IZR. rewrite !mult_IZR.
    assert (RU : (r <= IZR tau * (8651 / 28738))%R).
    { eapply Rle_trans; [apply B3|].
      apply Rle_trans with ((IZR tau * (1 + / 9007199254740992) * (301029995 / 1000000000 * (1 + / 9007199254740992))) * (1 + / 9007199254740992))%R.
      { apply Rmult_le_compat_r; lra. }
      replace (IZR tau * (1 + / 9007199254740992) * (301029995 / 1000000000 * (1 + / 9007199254740992)) * (1 + / 9007199254740992))%R
        with (IZR tau * ((1 + / 9007199254740992) * (301029995 / 1000000000 * (1 + / 9007199254740992)) * (1 + / 9007199254740992)))%R by ring.
      apply Rmult_le_compat_l; lra. }
    lra.
Qed.

Lemma pow10_pow2 : 10 ^ 8651 <= 2 ^ 28738.
Proof. apply Z.leb_le. vm_compute. reflexivity. Qed.

Lemma pow_le_cancel (a b n : Z) : 0 < n -> 0 <= a -> 0 <= b -> a ^ n <= b ^ n -> a <= b.
Proof.
  intros Hn Ha Hb H. destruct (Z.le_gt_cases a b) as [|L]; [assumption|].
  pose proof (Z.pow_lt_mono_l b a n Hn ltac:(lia)). lia.
Qed.

(** never more than tau bits are thrown *)
Lemma e10_throws_at_most tau : 0 < tau -> 10 ^ e10_double tau <= 2 ^ tau.
Proof.
  intros Ht. destruct (e10_bound tau Ht) as [H0 H1].
  apply (pow_le_cancel _ _ 28738); [lia|apply Z.pow_nonneg; lia|apply Z.pow_nonneg; lia|].
  rewrite <- !Z.pow_mul_r by lia.
  apply Z.le_trans with (10 ^ (8651 * tau)).
  - apply Z.pow_le_mono_r; lia.
  - rewrite (Z.mul_comm tau 28738). rewrite !Z.pow_mul_r by lia.
    apply Z.pow_le_mono_l. split; [apply Z.pow_nonneg; lia|apply pow10_pow2].
Qed.
