(** * IEEE doubles as real numbers: the operations of [dbl] (Double.v) and their rounding errors

    [dval x] is the real number of a finite double (0 for NaN and the infinities), [dfin x] says
    that x is finite.  Everything is derived from Coq's specification of primitive floats
    (Coq.Floats.FloatAxioms) through Flocq's IEEE754.PrimFloat. *)
From Coq Require Import ZArith Lia Floats Reals Lra Psatz Bool.
From Flocq Require Import Core Relative BinarySingleNaN PrimFloat.
From Verif Require Import FP Double.
Local Open Scope R_scope.

Definition dval (x : PrimFloat.float) : R := B2R (Prim2B x).
Definition dfin (x : PrimFloat.float) : Prop := is_finite (Prim2B x) = true.

Notation rnd := (round radix2 (FLT_exp (-1074) 53) ZnearestE).
(** the unit roundoff of doubles, and half of the smallest positive one *)
Definition du : R := bpow radix2 (-53).
Definition deta : R := bpow radix2 (-1075).

Lemma du_pos : 0 < du < / 8.
Proof.
  unfold du. split; [apply bpow_gt_0|]. change (/ 8) with (bpow radix2 (-3)). apply bpow_lt. lia.
Qed.
Lemma deta_pos : 0 < deta. Proof. apply bpow_gt_0. Qed.
Lemma deta_du : deta <= du / 8.
Proof.
  unfold deta, du. replace (bpow radix2 (-53) / 8) with (bpow radix2 (-56)).
  - apply bpow_le. lia.
  - replace (-56)%Z with (-53 + -3)%Z by lia. rewrite bpow_plus. change (bpow radix2 (-3)) with (/ 8). reflexivity.
Qed.

Global Instance prec53 : Prec_gt_0 53. Proof. now unfold Prec_gt_0. Qed.
Global Instance flt_ok : Valid_exp (FLT_exp (-1074) 53). Proof. apply FLT_exp_valid. exact prec53. Qed.

Lemma half_du : / 2 * bpow radix2 (- (53) + 1) = du.
Proof. unfold du. rewrite <- (bpow_plus radix2 (-1)). reflexivity. Qed.
Lemma half_eta : / 2 * bpow radix2 (-1074) = deta.
Proof. unfold deta. rewrite <- (bpow_plus radix2 (-1)). reflexivity. Qed.

(** |rnd x - x| <= u |x| + eta, and without eta away from 0 *)
Lemma rnd_err x : Rabs (rnd x - x) <= du * Rabs x + deta.
Proof.
  destruct (error_N_FLT radix2 (-1074) 53 ltac:(lia) (fun x => negb (Z.even x)) x) as (e & h & H1 & H2 & _ & ->).
  replace (x * (1 + e) + h - x) with (e * x + h) by ring.
  eapply Rle_trans; [apply Rabs_triang|]. rewrite Rabs_mult. apply Rplus_le_compat.
  - apply Rmult_le_compat_r; [apply Rabs_pos|]. eapply Rle_trans; [exact H1|].
    rewrite half_du. apply Rle_refl.
  - eapply Rle_trans; [exact H2|]. rewrite half_eta. apply Rle_refl.
Qed.

Lemma rnd_rel x : x = 0 \/ bpow radix2 (-1000) <= Rabs x -> Rabs (rnd x - x) <= du * Rabs x.
Proof.
  intros [->|H].
  - rewrite round_0 by typeclasses eauto. rewrite Rminus_0_r, Rabs_R0. lra.
  - eapply Rle_trans; [apply relative_error_N_FLT; [lia|]|].
    + eapply Rle_trans; [|exact H]. apply bpow_le. lia.
    + apply Rmult_le_compat_r; [apply Rabs_pos|]. rewrite half_du. apply Rle_refl.
Qed.

Lemma bpow_fmt e : (-1074 <= e)%Z -> generic_format radix2 (FLT_exp (-1074) 53) (bpow radix2 e).
Proof. intros H. apply generic_format_bpow. unfold FLT_exp. lia. Qed.

Lemma rnd_mono x y : x <= y -> rnd x <= rnd y.
Proof. intros H. apply round_le; try typeclasses eauto. exact H. Qed.
Lemma rnd_pos x : 0 <= x -> 0 <= rnd x.
Proof. intros H. rewrite <- (round_0 radix2 (FLT_exp (-1074) 53) ZnearestE). now apply rnd_mono. Qed.
Lemma rnd_abs_le x e : (-1074 <= e)%Z -> Rabs x <= bpow radix2 e -> Rabs (rnd x) <= bpow radix2 e.
Proof. intros He H. apply abs_round_le_generic; try typeclasses eauto; auto using bpow_fmt. Qed.
Lemma rnd_abs_ge x e : (-1074 <= e)%Z -> bpow radix2 e <= Rabs x -> bpow radix2 e <= Rabs (rnd x).
Proof. intros He H. apply abs_round_ge_generic; try typeclasses eauto; auto using bpow_fmt. Qed.

(** integers up to 2^53 times a power of 2 are doubles *)
Lemma int_fmt m e : (Z.abs m <= 2 ^ 53)%Z -> (-1074 <= e)%Z -> generic_format radix2 (FLT_exp (-1074) 53) (IZR m * bpow radix2 e).
Proof.
  intros Hm He. destruct (Z.eq_dec (Z.abs m) (2 ^ 53)) as [E|E].
  - assert (D : (m = 2 ^ 53 \/ m = - 2 ^ 53)%Z) by lia.
    assert (G : generic_format radix2 (FLT_exp (-1074) 53) (bpow radix2 (53 + e))) by (apply bpow_fmt; lia).
    rewrite bpow_plus in G. change (bpow radix2 53) with (IZR (2 ^ 53)) in G. destruct D as [-> | ->]; [exact G|].
    rewrite opp_IZR, Ropp_mult_distr_l_reverse. now apply generic_format_opp.
  - apply generic_format_FLT. exists (Float radix2 m e); [reflexivity|cbn [Fnum]; change (radix2 ^ 53)%Z with (2 ^ 53)%Z; lia|exact He].
Qed.

(** ** the operations *)
Definition small (x : R) : Prop := Rabs x <= bpow radix2 1023.

Lemma small_ok x : small x -> Rlt_bool (Rabs (rnd x)) (bpow radix2 1024) = true.
Proof.
  intros H. apply Rlt_bool_true. apply Rle_lt_trans with (bpow radix2 1023).
  - apply rnd_abs_le; [lia|exact H].
  - apply bpow_lt. lia.
Qed.

Lemma dval_add x y : dfin x -> dfin y -> small (dval x + dval y) -> dfin (x + y)%float /\ dval (x + y)%float = rnd (dval x + dval y).
Proof.
  intros FX FY H. unfold dfin, dval in *. rewrite add_equiv.
  pose proof (Bplus_correct _ _ Hprec Hmax mode_NE (Prim2B x) (Prim2B y) FX FY) as C.
  change (round radix2 (SpecFloat.fexp prec emax) (round_mode mode_NE)) with rnd in C. change (bpow radix2 emax) with (bpow radix2 1024) in C.
  rewrite small_ok in C by exact H. destruct C as (C1 & C2 & _). auto.
Qed.

Lemma dval_sub x y : dfin x -> dfin y -> small (dval x - dval y) -> dfin (x - y)%float /\ dval (x - y)%float = rnd (dval x - dval y).
Proof.
  intros FX FY H. unfold dfin, dval in *. rewrite sub_equiv.
  pose proof (Bminus_correct _ _ Hprec Hmax mode_NE (Prim2B x) (Prim2B y) FX FY) as C.
  change (round radix2 (SpecFloat.fexp prec emax) (round_mode mode_NE)) with rnd in C. change (bpow radix2 emax) with (bpow radix2 1024) in C.
  rewrite small_ok in C by exact H. destruct C as (C1 & C2 & _). auto.
Qed.

Lemma dval_mul x y : dfin x -> dfin y -> small (dval x * dval y) -> dfin (x * y)%float /\ dval (x * y)%float = rnd (dval x * dval y).
Proof.
  intros FX FY H. unfold dfin, dval in *. rewrite mul_equiv.
  pose proof (Bmult_correct _ _ Hprec Hmax mode_NE (Prim2B x) (Prim2B y)) as C.
  change (round radix2 (SpecFloat.fexp prec emax) (round_mode mode_NE)) with rnd in C. change (bpow radix2 emax) with (bpow radix2 1024) in C.
  rewrite small_ok in C by exact H. destruct C as (C1 & C2 & _). rewrite C2, FX, FY. auto.
Qed.

Lemma dval_div x y : dfin x -> dval y <> 0 -> small (dval x / dval y) -> dfin (x / y)%float /\ dval (x / y)%float = rnd (dval x / dval y).
Proof.
  intros FX FY H. unfold dfin, dval in *. rewrite div_equiv.
  pose proof (Bdiv_correct _ _ Hprec Hmax mode_NE (Prim2B x) (Prim2B y) FY) as C.
  change (round radix2 (SpecFloat.fexp prec emax) (round_mode mode_NE)) with rnd in C. change (bpow radix2 emax) with (bpow radix2 1024) in C.
  rewrite small_ok in C by exact H. destruct C as (C1 & C2 & _). rewrite C2. auto.
Qed.

(** a quotient that does not overflow is the rounded one; one that overflows is infinite *)
Lemma dval_div_fin x y : dfin x -> dval y <> 0 -> dfin (x / y)%float -> dval (x / y)%float = rnd (dval x / dval y).
Proof.
  intros FX FY H. unfold dfin, dval in *. rewrite div_equiv in *.
  pose proof (Bdiv_correct _ _ Hprec Hmax mode_NE (Prim2B x) (Prim2B y) FY) as C.
  change (round radix2 (SpecFloat.fexp prec emax) (round_mode mode_NE)) with rnd in C. destruct (Rlt_bool _ _).
  - tauto.
  - exfalso. rewrite <- is_finite_SF_B2SF, C in H. destruct (xorb _ _) in H; discriminate H.
Qed.

Lemma dval_div_nan x y : dfin x -> dval y <> 0 -> is_nan (Prim2B (x / y)%float) = false.
Proof.
  intros FX FY. unfold dfin, dval in *. rewrite div_equiv in *.
  pose proof (Bdiv_correct _ _ Hprec Hmax mode_NE (Prim2B x) (Prim2B y) FY) as C.
  destruct (Rlt_bool _ _).
  - destruct C as (_ & C & _). rewrite FX in C. destruct (Bdiv _ _ _); try discriminate; reflexivity.
  - rewrite <- is_nan_SF_B2SF, C. destruct (xorb _ _); reflexivity.
Qed.

Lemma dval_sqrt x : dfin x -> 0 <= dval x -> dfin (PrimFloat.sqrt x) /\ dval (PrimFloat.sqrt x) = rnd (R_sqrt.sqrt (dval x)).
Proof.
  intros FX H. unfold dfin, dval in *. rewrite sqrt_equiv.
  pose proof (Bsqrt_correct _ _ Hprec Hmax mode_NE (Prim2B x)) as (C1 & C2 & _). split; [|exact C1]. rewrite C2.
  destruct (Prim2B x) as [s|s| |s m e B]; try discriminate; auto. destruct s; [|reflexivity]. exfalso.
  cbn [B2R] in H. pose proof (F2R_lt_0 radix2 (Float radix2 (cond_Zopp true (Zpos m)) e) ltac:(cbn; lia)). lra.
Qed.

Lemma dval_abs x : dval (PrimFloat.abs x) = Rabs (dval x).
Proof. unfold dval. rewrite abs_equiv. apply B2R_Babs. Qed.
Lemma dfin_abs x : dfin (PrimFloat.abs x) <-> dfin x.
Proof. unfold dfin. rewrite abs_equiv, is_finite_Babs. tauto. Qed.
Lemma dval_opp x : dval (- x)%float = - dval x.
Proof. unfold dval. rewrite opp_equiv. apply B2R_Bopp. Qed.
Lemma dfin_opp x : dfin (- x)%float <-> dfin x.
Proof. unfold dfin. rewrite opp_equiv, is_finite_Bopp. tauto. Qed.

Lemma dval_ltb x y : dfin x -> dfin y -> (PrimFloat.ltb x y = true <-> dval x < dval y).
Proof. intros FX FY. rewrite ltb_equiv, Bltb_correct by assumption. unfold dval. destruct (Rlt_bool_spec (B2R (Prim2B x)) (B2R (Prim2B y))); split; intros; auto; try discriminate; lra. Qed.
Lemma dval_leb x y : dfin x -> dfin y -> (PrimFloat.leb x y = true <-> dval x <= dval y).
Proof. intros FX FY. rewrite leb_equiv, Bleb_correct by assumption. unfold dval. destruct (Rle_bool_spec (B2R (Prim2B x)) (B2R (Prim2B y))); split; intros; auto; try discriminate; lra. Qed.
Lemma dval_eqb x y : dfin x -> dfin y -> (PrimFloat.eqb x y = true <-> dval x = dval y).
Proof. intros FX FY. rewrite eqb_equiv, Beqb_correct by assumption. unfold dval. destruct (Req_bool_spec (B2R (Prim2B x)) (B2R (Prim2B y))); split; intros; auto; try discriminate; lra. Qed.

(** a comparison of |x| with a finite number that succeeds bounds x *)
Lemma ltb_abs_fin x c : dfin c -> PrimFloat.ltb (PrimFloat.abs x) c = true -> dfin x /\ Rabs (dval x) < dval c.
Proof.
  intros FC H. assert (FX : dfin x).
  { rewrite ltb_equiv, abs_equiv in H. unfold dfin in *. destruct (Prim2B x) as [s|s| |s m e B]; auto; exfalso;
      destruct (Prim2B c) as [s'|s'| |s' m' e' B']; try discriminate; destruct s'; discriminate. }
  split; [exact FX|]. rewrite <- dval_abs. apply dval_ltb; auto. now apply dfin_abs.
Qed.

Lemma eqb_zero x : PrimFloat.eqb x 0 = true -> dfin x /\ dval x = 0.
Proof.
  intros H. assert (FX : dfin x).
  { rewrite eqb_equiv in H. unfold dfin. change (Prim2B 0) with (Prim2B zero) in H. rewrite zero_equiv, Prim2B_B2Prim in H.
    destruct (Prim2B x) as [s|s| |s m e B]; auto; destruct s; discriminate. }
  split; [exact FX|]. assert (F0 : dfin 0%float) by reflexivity. apply (proj1 (dval_eqb x 0%float FX F0)) in H. rewrite H.
  unfold dval. change (Prim2B 0) with (Prim2B zero). rewrite zero_equiv, Prim2B_B2Prim. reflexivity.
Qed.

(** a comparison with a finite number that fails bounds x, when x is not NaN *)
Lemma ltb_false_fin x c : dfin c -> is_nan (Prim2B x) = false -> PrimFloat.ltb c (PrimFloat.abs x) = false -> dfin x /\ Rabs (dval x) <= dval c.
Proof.
  intros FC FN H. assert (FX : dfin x).
  { rewrite ltb_equiv, abs_equiv in H. unfold dfin in *. destruct (Prim2B x) as [s|s| |s m e B]; auto; try discriminate.
    exfalso. destruct (Prim2B c) as [s'|s'| |s' m' e' B']; try discriminate; destruct s'; discriminate. }
  split; [exact FX|]. rewrite <- dval_abs. apply Rnot_lt_le. intros C. apply dval_ltb in C; auto; [congruence|now apply dfin_abs].
Qed.

(** ** constants *)
Lemma dval_pow2 x e : Prim2SF x = S754_finite false (2 ^ 52)%positive e -> dfin x /\ dval x = bpow radix2 (52 + e).
Proof.
  intros E. unfold dfin, dval. unfold Prim2B. rewrite B2R_SF2B, is_finite_SF2B, E. split; [reflexivity|].
  cbn [SF2R cond_Zopp]. unfold F2R. cbn [Fnum Fexp]. change (IZR (Zpos (2 ^ 52))) with (bpow radix2 52). symmetry. apply bpow_plus.
Qed.

Lemma dval_one : dfin 1%float /\ dval 1%float = 1.
Proof. apply (dval_pow2 1%float (-52)). vm_compute. reflexivity. Qed.
Lemma dval_zero : dfin 0%float /\ dval 0%float = 0.
Proof. apply eqb_zero. reflexivity. Qed.
Lemma dval_two52 : dfin two52 /\ dval two52 = bpow radix2 52.
Proof. apply (dval_pow2 two52 0). vm_compute. reflexivity. Qed.

(** ** integers *)
Lemma dval_ofZ z : Rabs (IZR z) <= bpow radix2 1023 -> dfin (d_ofZ z) /\ dval (d_ofZ z) = rnd (IZR z).
Proof.
  intros H. unfold dfin, dval, d_ofZ.
  change (SpecFloat.binary_normalize 53 1024 z 0 false) with (SpecFloat.binary_normalize prec emax z 0 false).
  rewrite binary_normalize_equiv. change (SF2Prim (B2SF ?b)) with (B2Prim b). rewrite Prim2B_B2Prim.
  pose proof (binary_normalize_correct prec emax Hprec Hmax mode_NE z 0 false) as C. cbv zeta in C.
  change (round radix2 (SpecFloat.fexp prec emax) (round_mode mode_NE)) with rnd in C. change (bpow radix2 emax) with (bpow radix2 1024) in C.
  assert (E : F2R (Float radix2 z 0) = IZR z) by (unfold F2R; cbn [Fnum Fexp bpow]; ring). rewrite E in C.
  rewrite small_ok in C by exact H. destruct C as (C1 & C2 & _). auto.
Qed.

(** ** rint *)
Lemma rnd_int x : bpow radix2 52 <= x < bpow radix2 53 -> rnd x = IZR (ZnearestE x).
Proof.
  intros [H1 H2]. unfold round, scaled_mantissa, cexp. assert (P := bpow_gt_0 radix2 52).
  assert (M : mag radix2 x = 53%Z :> Z) by (apply mag_unique; rewrite Rabs_pos_eq by lra; exact (conj H1 H2)).
  rewrite M. change (FLT_exp (-1074) 53 53) with 0%Z. unfold F2R. cbn [Fnum Fexp Z.opp bpow]. now rewrite !Rmult_1_r.
Qed.

Lemma near_zero x : 0 <= x < bpow radix2 52 -> rnd (rnd (x + bpow radix2 52) - bpow radix2 52) = 0 -> x <= / 2.
Proof.
  intros H Z0. assert (E53 : bpow radix2 53 = bpow radix2 52 + bpow radix2 52).
  { change 53%Z with (1 + 52)%Z. rewrite bpow_plus. change (bpow radix2 1) with 2. ring. }
  rewrite (rnd_int (x + bpow radix2 52)) in Z0 by lra.
  assert (N := Znearest_half (fun x => negb (Z.even x)) (x + bpow radix2 52)). fold ZnearestE in N.
  set (z := ZnearestE (x + bpow radix2 52)) in *.
  change (bpow radix2 52) with (IZR (2 ^ 52)) in *. rewrite <- minus_IZR in Z0.
  assert (B : (0 <= z - 2 ^ 52 <= 2 ^ 52)%Z).
  { assert (L1 : IZR (2 ^ 52) <= IZR z).
    { unfold z. apply IZR_le. rewrite <- (Zrnd_IZR ZnearestE (2 ^ 52)) at 1. apply Zrnd_le; try typeclasses eauto. lra. }
    assert (L2 : IZR z <= IZR (2 ^ 53)).
    { unfold z. apply IZR_le. rewrite <- (Zrnd_IZR ZnearestE (2 ^ 53)). apply Zrnd_le; try typeclasses eauto.
      change (IZR (2 ^ 53)) with (bpow radix2 53). lra. }
    apply le_IZR in L1. apply le_IZR in L2. lia. }
  rewrite round_generic in Z0; try typeclasses eauto.
  2:{ pose proof (int_fmt (z - 2 ^ 52) 0 ltac:(lia) ltac:(lia)) as G. cbn [bpow] in G. now rewrite Rmult_1_r in G. }
  rewrite minus_IZR in Z0. apply Rabs_le_inv in N. lra.
Qed.

Lemma bpow_dbl e : bpow radix2 (e + 1) = 2 * bpow radix2 e.
Proof. rewrite bpow_plus. change (bpow radix2 1) with 2. ring. Qed.

(** a double that rint sends to 0 is finite and at most 1/2 in absolute value *)
Lemma rint_zero x : negb (PrimFloat.eqb (d_rint x) 0) = false -> dfin x /\ Rabs (dval x) <= / 2.
Proof.
  intros H. apply negb_false_iff, eqb_zero in H as [H1 H2]. unfold d_rint in *. destruct dval_two52 as [T1 T2].
  destruct (PrimFloat.ltb (PrimFloat.abs x) two52) eqn:E.
  2:{ split; [exact H1|]. rewrite H2, Rabs_R0. lra. }
  destruct (ltb_abs_fin _ _ T1 E) as [FX B]. rewrite T2 in B. split; [exact FX|].
  assert (BP : bpow radix2 52 <= bpow radix2 1000) by (apply bpow_le; lia).
  assert (B53 : bpow radix2 53 = 2 * bpow radix2 52) by apply (bpow_dbl 52).
  assert (B54 : bpow radix2 54 = 2 * bpow radix2 53) by apply (bpow_dbl 53).
  assert (B1 : bpow radix2 54 <= bpow radix2 1023) by (apply bpow_le; lia).
  pose proof (bpow_gt_0 radix2 52) as P.
  pose proof (Rabs_lt_inv _ _ B) as BB. destruct dval_zero as [F0 V0].
  destruct (PrimFloat.leb 0 x) eqn:EL.
  - apply dval_leb in EL; auto. rewrite V0 in EL. rewrite Rabs_pos_eq in * by exact EL. apply near_zero; [lra|].
    destruct (dval_add x two52 FX T1) as [A1 A2]. { unfold small. rewrite T2. apply Rabs_le. lra. }
    rewrite T2 in A2. assert (RB : Rabs (rnd (dval x + bpow radix2 52)) <= bpow radix2 53).
    { apply rnd_abs_le; [lia|]. apply Rabs_le. lra. }
    apply Rabs_le_inv in RB.
    destruct (dval_sub (x + two52)%float two52 A1 T1) as [S1 S2]. { unfold small. rewrite T2, A2. apply Rabs_le. lra. }
    rewrite T2, A2 in S2. congruence.
  - assert (NEG : dval x < 0). { apply Rnot_le_lt. intros C. rewrite <- V0 in C. apply dval_leb in C; auto. congruence. }
    rewrite Rabs_left in * by exact NEG. apply near_zero; [lra|].
    destruct (dval_sub x two52 FX T1) as [A1 A2]. { unfold small. rewrite T2. apply Rabs_le. lra. }
    rewrite T2 in A2. assert (RB : Rabs (rnd (dval x - bpow radix2 52)) <= bpow radix2 53).
    { apply rnd_abs_le; [lia|]. apply Rabs_le. lra. }
    apply Rabs_le_inv in RB.
    destruct (dval_add (x - two52)%float two52 A1 T1) as [S1 S2]. { unfold small. rewrite T2, A2. apply Rabs_le. lra. }
    rewrite T2, A2 in S2. rewrite S2 in H2.
    replace (dval x - bpow radix2 52) with (- (- dval x + bpow radix2 52)) in H2 by ring. rewrite round_NE_opp in H2.
    replace (- rnd (- dval x + bpow radix2 52) + bpow radix2 52) with (- (rnd (- dval x + bpow radix2 52) - bpow radix2 52)) in H2 by ring.
    rewrite round_NE_opp in H2. lra.
Qed.
