(** * FP_NR<dd_real>::set_z on 128-bit integers, src/nr_Z_l128.h 193-206 (HPLLL_WITH_QD) *)
From Coq Require Import ZArith Lia Reals Lra.
From Flocq Require Import Core Relative.
From Verif Require Import TruncFloat.
Local Open Scope Z_scope.

(** hi = (double) a;  tz = (__int128_t) hi;  tz -= a;  data = dd_real(hi, (double) tz):
    the pair (hi, lo) represents hi + lo *)
Definition dd_hi (a : Z) : R := rnd64 (IZR a).
Definition dd_lo (a : Z) : R := rnd64 (IZR (Ztrunc (dd_hi a) - a)).
Definition dd_set_z (a : Z) : R := (dd_hi a + dd_lo a)%R.

Lemma rnd64_int (a : Z) : exists b, rnd64 (IZR a) = IZR b.
Proof.
  unfold rnd64, round. set (e := cexp radix2 (FLT_exp (-1074) 53) (IZR a)).
  destruct (Z.le_gt_cases 0 e) as [H|H].
  - exists (ZnearestE (scaled_mantissa radix2 (FLT_exp (-1074) 53) (IZR a)) * 2 ^ e).
    unfold F2R. cbn [Fnum Fexp]. rewrite mult_IZR. f_equal. rewrite <- (IZR_Zpower radix2) by assumption. reflexivity.
  - exists a. unfold scaled_mantissa. fold e.
    assert (X : (IZR a * bpow radix2 (- e))%R = IZR (a * 2 ^ (- e))).
    { rewrite mult_IZR. f_equal. rewrite <- (IZR_Zpower radix2) by lia. reflexivity. }
    rewrite X, Zrnd_IZR; [|apply valid_rnd_N]. unfold F2R. cbn [Fnum Fexp]. rewrite <- X, Rmult_assoc, <- bpow_plus.
    replace (- e + e) with 0 by lia. cbn. lra.
Qed.

Lemma rnd64_opp x : rnd64 (- x) = (- rnd64 x)%R.
Proof. unfold rnd64. apply round_NE_opp. Qed.

Lemma rnd64_0 : rnd64 0 = 0%R.
Proof. apply round_0. apply valid_rnd_N. Qed.

Lemma rnd64_pos_int b : 0 < b -> (0 < rnd64 (IZR b))%R.
Proof.
  intros Hb. assert (1 <= IZR b)%R by (apply IZR_le; lia).
  pose proof (rnd64_err (IZR b) (bpow_small (IZR b) ltac:(lra))). lra.
Qed.

(** the low part has the wrong sign: its error adds up *)
Lemma dd_set_z_error a : Rabs (dd_set_z a - IZR a) = (Rabs (dd_hi a - IZR a) + Rabs (dd_lo a))%R /\
  (dd_hi a <> IZR a -> (0 < Rabs (dd_lo a))%R).
Proof.
  unfold dd_set_z, dd_lo. destruct (rnd64_int a) as (b & Hb). fold (dd_hi a) in Hb. rewrite Hb.
  rewrite Ztrunc_IZR. rewrite <- minus_IZR.
  replace (IZR b + rnd64 (IZR (b - a)) - IZR a)%R with (IZR (b - a) + rnd64 (IZR (b - a)))%R by (rewrite minus_IZR; ring).
  destruct (Z.lt_total (b - a) 0) as [L|[E|L]].
  - pose proof (rnd64_pos_int (- (b - a)) ltac:(lia)) as P. rewrite opp_IZR, rnd64_opp in P.
    assert (N : (IZR (b - a) < 0)%R) by (apply IZR_lt; lia).
    rewrite !Rabs_left by lra. split; [ring|lra].
  - rewrite E. rewrite rnd64_0, Rabs_R0, Rplus_0_r, Rabs_R0. split; [ring|].
    intros H. exfalso. apply H. f_equal. lia.
  - pose proof (rnd64_pos_int (b - a) ltac:(lia)) as P.
    assert (N : (0 < IZR (b - a))%R) by (apply IZR_lt; lia).
    rewrite !Rabs_right by lra. split; [ring|lra].
Qed.

(** 2^53 + 1 is not a double *)
Lemma not_double : dd_hi (2 ^ 53 + 1) <> IZR (2 ^ 53 + 1).
Proof.
  unfold dd_hi, rnd64. intros E.
  assert (F : generic_format radix2 (FLT_exp (-1074) 53) (IZR (2 ^ 53 + 1))).
  { rewrite <- E. apply generic_format_round; [apply FLT_exp_valid; reflexivity|apply valid_rnd_N]. }
  apply FLT_format_generic in F; [|reflexivity]. destruct F as [[m e] Hf Hm He]. cbn [Fnum Fexp] in *.
  unfold F2R in Hf. cbn [Fnum Fexp] in Hf.
  destruct (Z.le_gt_cases 1 e) as [H|H].
  - rewrite <- (IZR_Zpower radix2) in Hf by lia. rewrite <- mult_IZR in Hf. apply eq_IZR in Hf.
    assert (X : (2 ^ 53 + 1) mod 2 = 0).
    { rewrite Hf. change (Zpower radix2 e) with (2 ^ e). replace e with (1 + (e - 1)) by lia.
      rewrite Z.pow_add_r by lia. rewrite Z.mul_assoc, (Z.mul_comm m), <- Z.mul_assoc, Z.mul_comm. apply Z.mod_mul. lia. }
    vm_compute in X. discriminate.
  - assert (B : (bpow radix2 e <= 1)%R).
    { replace 1%R with (bpow radix2 0) by reflexivity. apply bpow_le. lia. }
    pose proof (bpow_gt_0 radix2 e).
    assert (M : (IZR (2 ^ 53 + 1) <= Rabs (IZR m))%R).
    { rewrite Hf. apply Rle_trans with (Rabs (IZR m * bpow radix2 e)); [apply Rle_abs|].
      rewrite Rabs_mult, (Rabs_right (bpow radix2 e)) by lra.
      rewrite <- (Rmult_1_r (Rabs (IZR m))) at 2. apply Rmult_le_compat_l; [apply Rabs_pos|assumption]. }
    rewrite <- abs_IZR in M. apply le_IZR in M. change (Zpower radix2 53) with (2 ^ 53) in Hm. lia.
Qed.
