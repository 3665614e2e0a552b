(** * The double instance converts to integers consistently *)
From Coq Require Import ZArith Floats Bool List Lia.
From Verif Require Import FP Double LongFlag.
Local Open Scope Z_scope.

Lemma digits2_log2 m : Z.pos (digits2_pos m) = Z.log2 (Z.pos m) + 1.
Proof.
  induction m as [m IH|m IH|].
  - cbn [digits2_pos]. rewrite Pos2Z.inj_succ, IH. change (Z.pos m~1) with (2 * Z.pos m + 1).
    rewrite Z.log2_succ_double by lia. lia.
  - cbn [digits2_pos]. rewrite Pos2Z.inj_succ, IH. change (Z.pos m~0) with (2 * Z.pos m).
    rewrite Z.log2_double by lia. lia.
  - reflexivity.
Qed.

Lemma mantissa_bound x s m e : Prim2SF x = S754_finite s m e -> Z.log2 (Z.pos m) + 1 <= 53.
Proof.
  intros E. pose proof (Prim2SF_valid x) as V. rewrite E in V.
  cbn [valid_binary] in V. unfold bounded in V. apply andb_true_iff in V as [V _].
  unfold canonical_mantissa in V. apply Zeq_bool_eq in V.
  rewrite digits2_log2 in V. unfold fexp, SpecFloat.emin in V.
  change FloatOps.prec with 53 in V. change FloatOps.emax with 1024 in V. lia.
Qed.

Lemma quot_pow_exact a e E : 0 <= e <= E -> Z.quot (a * 2 ^ E) (2 ^ e) * 2 ^ e = a * 2 ^ E.
Proof.
  intros H. replace (2 ^ E) with (2 ^ (E - e) * 2 ^ e) by (rewrite <- Z.pow_add_r by lia; f_equal; lia).
  rewrite Z.mul_assoc, Z.quot_mul; [reflexivity|]. apply Z.pow_nonzero; lia.
Qed.

Lemma gse_exact z : (exists a E, z = a * 2 ^ E /\ 0 <= E /\ Z.log2 (Z.abs a) < 61) ->
  let e := Z.max 0 (Z.log2 (Z.abs z) + 1 - 62) in Z.quot z (2 ^ e) * 2 ^ e = z.
Proof.
  intros (a & E & -> & HE & HA). cbv zeta. apply quot_pow_exact. split; [lia|].
  rewrite Z.abs_mul, (Z.abs_eq (2 ^ E)) by (apply Z.pow_nonneg; lia).
  destruct (Z.eq_dec a 0) as [->|N].
  - cbn. lia.
  - rewrite Z.log2_mul_pow2 by lia. lia.
Qed.

Lemma dbl_conv_agree : conv_agree dbl.
Proof.
  intros x. split; [apply dbl_expo_nonneg|]. cbn [fgse fset_f dbl]. unfold d_gse. cbn [fst snd].
  apply gse_exact. unfold d_toZ. destruct (Prim2SF x) as [s|s| |s m e] eqn:EX;
    try (exists 0, 0; cbn; lia).
  pose proof (mantissa_bound x s m e EX) as B.
  destruct (Z.leb_spec 0 e) as [He|He].
  - destruct s.
    + exists (- Z.pos m), e. split; [ring|]. split; [lia|]. rewrite Z.abs_opp. cbn [Z.abs]. lia.
    + exists (Z.pos m), e. split; [ring|]. split; [lia|]. cbn [Z.abs]. lia.
  - assert (P : 0 < 2 ^ (- e)) by (apply Z.pow_pos_nonneg; lia).
    assert (Q : 0 <= Z.pos m / 2 ^ (- e) <= Z.pos m).
    { split; [apply Z.div_pos; lia|]. apply Z.div_le_upper_bound; nia. }
    exists ((if s then - (Z.pos m / 2 ^ (- e)) else Z.pos m / 2 ^ (- e))), 0. rewrite Z.pow_0_r, Z.mul_1_r.
    split; [reflexivity|]. split; [lia|].
    replace (Z.abs (if s then - (Z.pos m / 2 ^ (- e)) else Z.pos m / 2 ^ (- e))) with (Z.pos m / 2 ^ (- e))
      by (destruct s; lia).
    pose proof (Z.log2_le_mono _ _ (proj2 Q)). lia.
Qed.
